(** UTF-16 conversion and string codec. *)
From Verif Require Import Base CompressionModel CompressionProofs.

Definition is_unit (u : Z) : Prop := 0 <= u < 65536.
Definition is_scalar (c : Z) : Prop := 0 <= c < 0xD800 \/ 0xE000 <= c < 0x110000.

Lemma land_fc00 : forall u, 0 <= u < 65536 -> Z.land u 0xfffffc00 = u / 1024 * 1024.
Proof.
  intros u H.
  replace 0xfffffc00 with (Z.ldiff (Z.ones 32) (Z.ones 10)) by reflexivity.
  replace (Z.land u (Z.ldiff (Z.ones 32) (Z.ones 10)))
    with (Z.ldiff (Z.land u (Z.ones 32)) (Z.ones 10)).
  - rewrite Z.land_ones by lia. rewrite Z.mod_small by (change (2 ^ 32) with 4294967296; lia).
    rewrite Z.ldiff_ones_r by lia. rewrite Z.shiftl_mul_pow2, Z.shiftr_div_pow2 by lia.
    reflexivity.
  - apply Z.bits_inj'. intros n Hn. rewrite !Z.ldiff_spec, !Z.land_spec, !Z.ldiff_spec.
    rewrite andb_assoc. reflexivity.
Qed.

Lemma is_lead_iff : forall u, is_unit u ->
  u16_is_lead u = (0xD800 <=? u) && (u <? 0xDC00).
Proof. intros u H. unfold is_unit in H. unfold u16_is_lead. rewrite land_fc00 by lia. lia. Qed.
Lemma is_trail_iff : forall u, is_unit u ->
  u16_is_trail u = (0xDC00 <=? u) && (u <? 0xE000).
Proof. intros u H. unfold is_unit in H. unfold u16_is_trail. rewrite land_fc00 by lia. lia. Qed.

Lemma supp_arith : forall l t,
  u16_supp l t = 0x10000 + (l - 0xD800) * 0x400 + (t - 0xDC00).
Proof.
  intros. unfold u16_supp. rewrite !Z.shiftl_mul_pow2 by lia. change (2 ^ 10) with 1024. lia.
Qed.

Lemma append_bmp : forall s c, is_unit c -> append_cp s c = s ++ [c].
Proof.
  intros s c H. unfold is_unit in H. unfold append_cp.
  replace (c <=? 65535) with true by lia. change (2 ^ 16) with 65536.
  rewrite Z.mod_small by lia. reflexivity.
Qed.

Lemma append_supp : forall s c, 0x10000 <= c < 0x110000 ->
  append_cp s c = s ++ [0xD800 + (c - 0x10000) / 1024; 0xDC00 + c mod 1024].
Proof.
  intros s c H. unfold append_cp. replace (c <=? 65535) with false by lia.
  change (2 ^ 16) with 65536. rewrite Z.shiftr_div_pow2 by lia.
  change 1023 with (2 ^ 10 - 1). rewrite land_ones_mod by lia. change (2 ^ 10) with 1024.
  rewrite !Z.mod_small by lia. reflexivity.
Qed.

Lemma append_vec32 : forall n s acc, (length s <= n)%nat -> Forall is_unit s ->
  fold_left append_cp (ustring_to_vec32 s) acc = acc ++ s.
Proof.
  induction n as [|n IH]; intros s acc Hn Hs.
  - destruct s; [cbn; now rewrite app_nil_r | cbn in Hn; lia].
  - destruct s as [|u r]; [cbn; now rewrite app_nil_r|].
    inversion Hs as [|? ? Hu Hr]; subst. cbn [ustring_to_vec32].
    assert (Hsingle : fold_left append_cp (u :: ustring_to_vec32 r) acc = acc ++ u :: r).
    { cbn [fold_left]. rewrite append_bmp by assumption. rewrite IH; [|cbn in Hn; lia|assumption].
      rewrite <- app_assoc. reflexivity. }
    destruct (u16_is_lead u) eqn:El; [|exact Hsingle].
    destruct r as [|t r']; [exact Hsingle|].
    destruct (u16_is_trail t) eqn:Et; [|exact Hsingle].
    inversion Hr as [|? ? Ht Hr']; subst.
    rewrite is_lead_iff in El by assumption. rewrite is_trail_iff in Et by assumption.
    cbn [fold_left]. rewrite supp_arith, append_supp by lia.
    rewrite IH; [|cbn in Hn; lia|assumption]. rewrite <- app_assoc. cbn [app].
    f_equal. f_equal; [lia|]. f_equal. lia.
Qed.

Lemma fold_append_app : forall cps acc,
  fold_left append_cp cps acc = acc ++ fold_left append_cp cps [].
Proof.
  induction cps as [|c cps IH]; intros acc; cbn [fold_left]; [now rewrite app_nil_r|].
  rewrite IH. rewrite (IH (append_cp [] c)). unfold append_cp.
  destruct (c <=? 65535); cbn [app]; now rewrite <- !app_assoc.
Qed.

Lemma vec32_append : forall cps, Forall is_scalar cps ->
  ustring_to_vec32 (fold_left append_cp cps []) = cps.
Proof.
  induction cps as [|c cps IH]; intros H; [reflexivity|].
  inversion H as [|? ? Hc Hcs]; subst. unfold is_scalar in Hc. cbn [fold_left].
  rewrite fold_append_app. destruct (Z.le_gt_cases c 65535) as [Hle|Hgt].
  - rewrite append_bmp by (unfold is_unit; lia). cbn [app ustring_to_vec32].
    rewrite is_lead_iff by (unfold is_unit; lia).
    replace ((55296 <=? c) && (c <? 56320)) with false by lia. now rewrite IH.
  - rewrite append_supp by lia. cbn [app ustring_to_vec32].
    rewrite is_lead_iff by (unfold is_unit; lia).
    match goal with |- context [if ?b then _ else _] => replace b with true by lia end.
    rewrite is_trail_iff by (unfold is_unit; lia).
    match goal with |- context [if ?b then _ else _] => replace b with true by lia end.
    rewrite IH by assumption. rewrite supp_arith. f_equal. lia.
Qed.

Lemma vec32_range : forall n s, (length s <= n)%nat -> Forall is_unit s ->
  Forall (fun c => 0 <= c < 0x110000) (ustring_to_vec32 s)
  /\ (length (ustring_to_vec32 s) <= length s)%nat.
Proof.
  induction n as [|n IH]; intros s Hn Hs.
  - destruct s; [cbn; auto | cbn in Hn; lia].
  - destruct s as [|u r]; [cbn; auto|].
    inversion Hs as [|? ? Hu Hr]; subst. unfold is_unit in Hu. cbn [ustring_to_vec32].
    cbn [length] in Hn.
    assert (Hsingle : Forall (fun c => 0 <= c < 0x110000) (u :: ustring_to_vec32 r)
      /\ (length (u :: ustring_to_vec32 r) <= length (u :: r))%nat).
    { destruct (IH r) as [H1 H2]; [lia|assumption|]. split; [constructor; [lia|assumption]|cbn; lia]. }
    destruct (u16_is_lead u) eqn:El; [|exact Hsingle].
    destruct r as [|t r']; [exact Hsingle|].
    destruct (u16_is_trail t) eqn:Et; [|exact Hsingle].
    inversion Hr as [|? ? Ht Hr']; subst. cbn [length] in Hn.
    rewrite is_lead_iff in El by (unfold is_unit; lia).
    rewrite is_trail_iff in Et by assumption.
    destruct (IH r') as [H1 H2]; [lia|assumption|].
    split; [constructor; [rewrite supp_arith; lia|assumption]|cbn; lia].
Qed.

Lemma string_read_loop_list : forall n inp acc vs rest,
  multibyte_read_list n inp = (vs, rest) ->
  string_read_loop n inp acc = (fold_left append_cp vs acc, rest).
Proof.
  induction n as [|n IH]; intros inp acc vs rest H.
  - cbn in H. injection H as <- <-. reflexivity.
  - cbn [multibyte_read_list] in H. cbn [string_read_loop].
    destruct (multibyte_read inp) as [v inp'].
    destruct (multibyte_read_list n inp') as [vs' inp''] eqn:E.
    injection H as <- <-. cbn [fold_left]. now apply IH.
Qed.

Lemma string_roundtrip : forall s, Forall is_unit s -> Z.of_nat (length s) < 2 ^ 30 ->
  exists bs, string_write s = Ok bs /\ bytes bs
    /\ forall rest, string_read (bs ++ rest) = (s, rest).
Proof.
  intros s Hs Hl.
  destruct (vec32_range (length s) s) as [Hr Hlen]; [lia|assumption|].
  destruct (multibyte_roundtrip (Z.of_nat (length (ustring_to_vec32 s)))) as (b & Hb & Hbb & _ & Hrd);
    [lia|].
  destruct (multibyte_list_roundtrip (ustring_to_vec32 s)) as (bs & Hbs & Hbbs & Hrds).
  { eapply Forall_impl; [|exact Hr]. cbn. intros a Ha. change (2 ^ 30) with 1073741824. lia. }
  exists (b ++ bs). unfold string_write.
  replace (to_uint (Z.of_nat (length (ustring_to_vec32 s))))
    with (Z.of_nat (length (ustring_to_vec32 s)))
    by (unfold to_uint; rewrite Z.mod_small; [reflexivity|]; change (2 ^ 30) with 1073741824 in *;
        change (2 ^ 32) with 4294967296; lia).
  rewrite Hb. cbn [obind]. rewrite Hbs. cbn [obind]. split; [reflexivity|].
  split; [apply Forall_app; auto|]. intros rest. unfold string_read.
  rewrite <- app_assoc, Hrd, Nat2Z.id.
  erewrite string_read_loop_list by apply Hrds.
  rewrite append_vec32 with (n := length s); auto.
Qed.
