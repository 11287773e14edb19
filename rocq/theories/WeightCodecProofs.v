(** Weight codec and headers. *)
From Coq Require Import QArith Qpower Qabs.
From Verif Require Import Base CompressionModel CompressionProofs.
Open Scope Z_scope.

Lemma long_word_roundtrip : forall w, 0 <= w < 2 ^ 32 ->
  exists bs, long_word_write w = Ok bs /\ bytes bs
    /\ forall rest, long_word_read (bs ++ rest) = (w, rest).
Proof.
  intros w Hw. change (2 ^ 32) with 4294967296 in Hw. unfold long_word_write.
  destruct (w <? 0x04000000) eqn:E.
  - destruct (multibyte_roundtrip w) as (bs & Hb & Hbb & _ & Hr);
      [change (2 ^ 30) with 1073741824; lia|].
    exists bs. split; [exact Hb|]. split; [exact Hbb|]. intros rest. unfold long_word_read.
    rewrite Hr, E. reflexivity.
  - assert (El : Z.shiftr (to_uint (Z.shiftl w 6)) 6 = w mod 67108864).
    { unfold to_uint. rewrite Z.shiftr_div_pow2, Z.shiftl_mul_pow2 by lia.
      change (2 ^ 32) with (67108864 * 2 ^ 6).
      rewrite Zmult_mod_distr_r. rewrite Z.div_mul by (cbn; lia). reflexivity. }
    assert (Eu : Z.lor (Z.shiftr w 26) 0x04000000 = 67108864 + w / 67108864).
    { rewrite Z.shiftr_div_pow2 by lia. change (2 ^ 26) with 67108864. rewrite Z.lor_comm.
      assert (L := lor_add_low 26 (w / 67108864) 1). change (1 * 2 ^ 26) with 67108864 in L.
      change (2 ^ 26) with 67108864 in L. apply L; lia. }
    rewrite El, Eu.
    destruct (multibyte_roundtrip (67108864 + w / 67108864)) as (b1 & H1 & Hb1 & _ & Hr1);
      [change (2 ^ 30) with 1073741824; lia|].
    destruct (multibyte_roundtrip (w mod 67108864)) as (b2 & H2 & Hb2 & _ & Hr2);
      [change (2 ^ 30) with 1073741824; lia|].
    exists (b1 ++ b2). rewrite H1. cbn [obind]. rewrite H2. cbn [obind]. split; [reflexivity|].
    split; [apply Forall_app; auto|]. intros rest. unfold long_word_read.
    rewrite <- app_assoc, Hr1.
    replace (67108864 + w / 67108864 <? 67108864) with false by lia.
    rewrite Hr2. f_equal.
    change 67108863 with (2 ^ 26 - 1). rewrite land_ones_mod by lia. change (2 ^ 26) with 67108864.
    replace ((67108864 + w / 67108864) mod 67108864) with (w / 67108864) by lia.
    unfold to_uint. rewrite Z.shiftl_mul_pow2 by lia. change (2 ^ 32) with 4294967296.
    rewrite (Z.mod_small (w / 67108864 * 2 ^ 26)) by (change (2 ^ 26) with 67108864; lia).
    rewrite Z.lor_comm, lor_add_low by (change (2 ^ 26) with 67108864; lia).
    change (2 ^ 26) with 67108864. lia.
Qed.

Lemma to_int_uint : forall z, - 2 ^ 31 <= z < 2 ^ 31 -> to_int (to_uint z) = z.
Proof.
  intros z H. unfold to_int, to_uint. change (2 ^ 31) with 2147483648 in *.
  change (2 ^ 32) with 4294967296. destruct (z mod 4294967296 <? 2147483648) eqn:E; lia.
Qed.

Lemma to_uint_range : forall z, 0 <= to_uint z < 2 ^ 32.
Proof. intros z. unfold to_uint. apply Z.mod_pos_bound. reflexivity. Qed.

Lemma nbits_spec : forall m, m <> 0 -> 1 <= nbits m /\ 2 ^ (nbits m - 1) <= Z.abs m < 2 ^ nbits m.
Proof.
  intros m H. unfold nbits. destruct (m =? 0) eqn:E; [lia|].
  assert (H0 := Z.log2_nonneg (Z.abs m)). assert (H1 := Z.log2_spec (Z.abs m) ltac:(lia)).
  replace (Z.log2 (Z.abs m) + 1 - 1) with (Z.log2 (Z.abs m)) by lia.
  replace (Z.log2 (Z.abs m) + 1) with (Z.succ (Z.log2 (Z.abs m))) by lia. lia.
Qed.

(** Magnitude of the stored mantissa: it is at least 2^29, so it is never the
    all-ones word that marks infinities. *)
Lemma w_mantissa_abs : forall m, Z.abs (w_mantissa m) = Z.abs m * 2 ^ 30 / 2 ^ nbits m.
Proof.
  intros m. unfold w_mantissa.
  assert (Hb : 0 < 2 ^ nbits m).
  { apply Z.pow_pos_nonneg; [lia|]. unfold nbits. destruct (m =? 0); [lia|].
    assert (H0 := Z.log2_nonneg (Z.abs m)). lia. }
  rewrite <- Z.quot_abs by lia. rewrite Z.abs_mul, (Z.abs_eq (2 ^ 30)), (Z.abs_eq (2 ^ nbits m)) by (lia || discriminate).
  apply Z.quot_div_nonneg; [|lia]. apply Z.mul_nonneg_nonneg; [lia|discriminate].
Qed.

Lemma w_mantissa_range : forall m, m <> 0 ->
  2 ^ 29 <= Z.abs (w_mantissa m) < 2 ^ 30.
Proof.
  intros m H. rewrite w_mantissa_abs. destruct (nbits_spec m H) as (H1 & H2 & H3).
  assert (E : 2 ^ nbits m = 2 * 2 ^ (nbits m - 1)).
  { rewrite <- Z.pow_succ_r by lia. f_equal. lia. }
  assert (Hp : 0 < 2 ^ (nbits m - 1)) by (apply Z.pow_pos_nonneg; lia).
  split.
  - apply Z.div_le_lower_bound; [lia|]. rewrite E. change (2 ^ 30) with (2 * 2 ^ 29). nia.
  - apply Z.div_lt_upper_bound; [lia|]. change (2 ^ 30) with 1073741824. nia.
Qed.

Lemma w_mantissa_sgn : forall m, m <> 0 -> Z.sgn (w_mantissa m) = Z.sgn m.
Proof.
  intros m H. assert (Hr := w_mantissa_range m H). change (2 ^ 29) with 536870912 in Hr.
  change (2 ^ 30) with 1073741824 in Hr. unfold w_mantissa in *.
  assert (Hb : 0 < 2 ^ nbits m) by (destruct (nbits_spec m H); apply Z.pow_pos_nonneg; lia).
  destruct (Z.lt_total m 0) as [Hn|[Hz|Hp]]; [|lia|].
  - assert (Z.quot (m * 2 ^ 30) (2 ^ nbits m) <= 0).
    { replace (m * 2 ^ 30) with (- (- m * 2 ^ 30)) by ring. rewrite Z.quot_opp_l by lia.
      assert (0 <= (- m * 2 ^ 30) ÷ 2 ^ nbits m).
      { apply Z.quot_pos; [|lia]. apply Z.mul_nonneg_nonneg; [lia|]. discriminate. }
      lia. }
    lia.
  - assert (0 <= Z.quot (m * 2 ^ 30) (2 ^ nbits m)).
    { apply Z.quot_pos; [|lia]. apply Z.mul_nonneg_nonneg; [lia|discriminate]. }
    lia.
Qed.

(** Truncation error of the mantissa. *)
Lemma w_mantissa_error : forall m, m <> 0 ->
  0 <= Z.abs m * 2 ^ 30 - Z.abs (w_mantissa m) * 2 ^ nbits m < 2 ^ nbits m.
Proof.
  intros m H. rewrite w_mantissa_abs.
  assert (Hb : 0 < 2 ^ nbits m) by (destruct (nbits_spec m H); apply Z.pow_pos_nonneg; lia).
  assert (Hd := Z.div_mod (Z.abs m * 2 ^ 30) (2 ^ nbits m) ltac:(lia)).
  assert (Hm := Z.mod_pos_bound (Z.abs m * 2 ^ 30) (2 ^ nbits m) ltac:(lia)). nia.
Qed.

(** What a finite weight becomes after one write/read cycle. *)
Definition reread (m e : Z) : weight := WFin (w_mantissa m) (w_exponent m e - 30).

Definition exp_ok (m e : Z) : Prop := - 2 ^ 31 <= w_exponent m e < 2 ^ 31.

Lemma weight_fin_roundtrip : forall m e, exp_ok m e ->
  exists bs, long_multibyte_write (WFin m e) = Ok bs /\ bytes bs
    /\ forall rest, long_multibyte_read (bs ++ rest) = (reread m e, rest).
Proof.
  intros m e He. unfold exp_ok in He.
  destruct (long_word_roundtrip (to_uint (w_mantissa m))) as (b1 & H1 & Hb1 & Hr1);
    [apply to_uint_range|].
  destruct (long_word_roundtrip (to_uint (w_exponent m e))) as (b2 & H2 & Hb2 & Hr2);
    [apply to_uint_range|].
  exists (b1 ++ b2). unfold long_multibyte_write. rewrite H1. cbn [obind]. rewrite H2. cbn [obind].
  split; [reflexivity|]. split; [apply Forall_app; auto|]. intros rest.
  unfold long_multibyte_read. rewrite <- app_assoc, Hr1, Hr2.
  assert (Hm : - 2 ^ 31 <= w_mantissa m < 2 ^ 31 /\ w_mantissa m <> -1).
  { destruct (Z.eq_dec m 0) as [->|Hz]; [cbn; lia|].
    assert (Hr := w_mantissa_range m Hz). change (2 ^ 29) with 536870912 in Hr.
    change (2 ^ 30) with 1073741824 in Hr. change (2 ^ 31) with 2147483648. lia. }
  replace (to_uint (w_mantissa m) =? 2 ^ 32 - 1) with false.
  - cbn [andb]. rewrite !to_int_uint by lia. reflexivity.
  - symmetry. unfold to_uint. change (2 ^ 32) with 4294967296. change (2 ^ 31) with 2147483648 in Hm.
    lia.
Qed.

Lemma weight_inf_roundtrip : forall w, w = WPInf \/ w = WNInf ->
  exists bs, long_multibyte_write w = Ok bs /\ bytes bs
    /\ forall rest, long_multibyte_read (bs ++ rest) = (w, rest).
Proof.
  intros w Hw.
  destruct (long_word_roundtrip (2 ^ 32 - 1)) as (b1 & H1 & Hb1 & Hr1); [lia|].
  destruct (long_word_roundtrip (2 ^ 32 - 2)) as (b2 & H2 & Hb2 & Hr2); [cbn; lia|].
  destruct Hw as [-> | ->]; unfold long_multibyte_write.
  - exists (b1 ++ b1). rewrite H1. cbn [obind]. split; [reflexivity|].
    split; [apply Forall_app; auto|]. intros rest. unfold long_multibyte_read.
    rewrite <- app_assoc, !Hr1. reflexivity.
  - exists (b1 ++ b2). rewrite H1. cbn [obind]. rewrite H2. cbn [obind]. split; [reflexivity|].
    split; [apply Forall_app; auto|]. intros rest. unfold long_multibyte_read.
    rewrite <- app_assoc, Hr1, Hr2. reflexivity.
Qed.

(** The real number denoted by a finite weight. *)
Definition fval (m e : Z) : Q := inject_Z m * Qpower 2 e.

Lemma two_neq_0 : ~ (2 == 0)%Q.
Proof. intros H. discriminate H. Qed.

Lemma Qpower_2_Z : forall k, 0 <= k -> (Qpower 2 k == inject_Z (2 ^ k))%Q.
Proof.
  intros k Hk. change 2%Q with (inject_Z 2). symmetry. apply Zpower_Qpower. lia.
Qed.

Lemma Qpower_2_pos : forall k, (0 < Qpower 2 k)%Q.
Proof.
  intros k. destruct (Z.le_gt_cases 0 k) as [H|H].
  - rewrite Qpower_2_Z by lia. change 0%Q with (inject_Z 0). rewrite <- Zlt_Qlt.
    apply Z.pow_pos_nonneg; lia.
  - replace k with (- (- k)) by lia. rewrite Qpower_opp. apply Qinv_lt_0_compat.
    rewrite Qpower_2_Z by lia. change 0%Q with (inject_Z 0). rewrite <- Zlt_Qlt.
    apply Z.pow_pos_nonneg; lia.
Qed.

Lemma fval_shift : forall m k e, 0 <= k -> (fval (m * 2 ^ k) e == fval m (e + k))%Q.
Proof.
  intros m k e Hk. unfold fval. rewrite Qpower_plus by exact two_neq_0.
  rewrite inject_Z_mult, (Qpower_2_Z k) by lia. ring.
Qed.

Lemma fval_reread_exact : forall m e, exp_ok m e -> Z.abs m < 2 ^ 30 ->
  (fval (w_mantissa m) (w_exponent m e - 30) == fval m e)%Q.
Proof.
  intros m e He Hm. unfold w_mantissa, w_exponent.
  destruct (Z.eq_dec m 0) as [->|Hz]; [reflexivity|].
  replace (m =? 0) with false by lia. destruct (nbits_spec m Hz) as (H1 & H2 & H3).
  assert (Hn : nbits m <= 30).
  { assert (2 ^ (nbits m - 1) < 2 ^ 30) by lia. apply Z.pow_lt_mono_r_iff in H; lia. }
  replace (2 ^ 30) with (2 ^ (30 - nbits m) * 2 ^ nbits m)
    by (rewrite <- Z.pow_add_r by lia; f_equal; lia).
  rewrite Z.mul_assoc, Z.quot_mul by (apply Z.pow_nonzero; lia).
  rewrite fval_shift by lia. replace (e + nbits m - 30 + (30 - nbits m)) with e by lia.
  reflexivity.
Qed.

(** Exactness does not depend on how the number is represented. *)
Lemma nbits_shift : forall m k, 0 <= k -> m <> 0 -> nbits (m * 2 ^ k) = nbits m + k.
Proof.
  intros m k Hk Hm. unfold nbits.
  assert (Hp : 0 < 2 ^ k) by (apply Z.pow_pos_nonneg; lia).
  replace (m * 2 ^ k =? 0) with false by nia. replace (m =? 0) with false by lia.
  rewrite Z.abs_mul, (Z.abs_eq (2 ^ k)) by lia. rewrite Z.log2_mul_pow2 by lia. lia.
Qed.

Lemma reread_shift : forall m k e, 0 <= k -> reread (m * 2 ^ k) e = reread m (e + k).
Proof.
  intros m k e Hk. unfold reread. destruct (Z.eq_dec m 0) as [->|Hm]; [reflexivity|].
  assert (Hp : 0 < 2 ^ k) by (apply Z.pow_pos_nonneg; lia).
  f_equal.
  - unfold w_mantissa. rewrite nbits_shift by assumption. rewrite Z.pow_add_r; [|destruct (nbits_spec m Hm); lia|lia].
    replace (m * 2 ^ k * 2 ^ 30) with (m * 2 ^ 30 * 2 ^ k) by ring.
    apply Z.quot_mul_cancel_r; [|lia]. apply Z.pow_nonzero; [lia|]. destruct (nbits_spec m Hm); lia.
  - unfold w_exponent. rewrite nbits_shift by assumption.
    replace (m * 2 ^ k =? 0) with false by nia. replace (m =? 0) with false by lia. lia.
Qed.

(** Sign, direction and size of the error in general. *)
Lemma fval_abs : forall m e, (Qabs (fval m e) == fval (Z.abs m) e)%Q.
Proof.
  intros m e. unfold fval. rewrite Qabs_Qmult. rewrite (Qabs_pos (Qpower 2 e)).
  - apply Qmult_comp; [|reflexivity]. unfold Qabs, inject_Z. reflexivity.
  - apply Qlt_le_weak, Qpower_2_pos.
Qed.

Lemma fval_reread_error : forall m e, exp_ok m e -> m <> 0 ->
  let v := Qabs (fval m e) in
  let v' := Qabs (fval (w_mantissa m) (w_exponent m e - 30)) in
  (v' <= v)%Q /\ (v - v' < v * Qpower 2 (-29))%Q
  /\ Z.sgn (w_mantissa m) = Z.sgn m.
Proof.
  intros m e He Hm v v'. subst v v'. rewrite !fval_abs.
  destruct (nbits_spec m Hm) as (H1 & H2 & H3).
  assert (Herr := w_mantissa_error m Hm).
  unfold w_exponent. replace (m =? 0) with false by lia.
  assert (E1 : (fval (Z.abs m) e == fval (Z.abs m * 2 ^ 30) (e - 30))%Q).
  { rewrite fval_shift by lia. replace (e - 30 + 30) with e by lia. reflexivity. }
  assert (E2 : (fval (Z.abs (w_mantissa m)) (e + nbits m - 30)
                == fval (Z.abs (w_mantissa m) * 2 ^ nbits m) (e - 30))%Q).
  { rewrite fval_shift by lia. replace (e - 30 + nbits m) with (e + nbits m - 30) by lia. reflexivity. }
  rewrite E1, E2. assert (Hp := Qpower_2_pos (e - 30)). split; [|split].
  - unfold fval. apply Qmult_le_compat_r; [|apply Qlt_le_weak, Hp]. rewrite <- Zle_Qle. lia.
  - assert (E3 : (fval (Z.abs m * 2 ^ 30) (e - 30) * Qpower 2 (-29)
                  == fval (Z.abs m * 2) (e - 30))%Q).
    { unfold fval. change (Z.abs m * 2 ^ 30) with (Z.abs m * (2 * 2 ^ 29)).
      rewrite !inject_Z_mult. change (Qpower 2 (-29)) with (1 # 536870912).
      change (inject_Z (2 ^ 29)) with (536870912 # 1). 
      assert (E : ((536870912 # 1) * (1 # 536870912) == 1)%Q) by reflexivity.
      transitivity (inject_Z (Z.abs m) * inject_Z 2 * Qpower 2 (e - 30)
                    * ((536870912 # 1) * (1 # 536870912)))%Q; [ring|rewrite E; ring]. }
    rewrite E3. unfold fval.
    setoid_replace (inject_Z (Z.abs m * 2 ^ 30) * Qpower 2 (e - 30)
      - inject_Z (Z.abs (w_mantissa m) * 2 ^ nbits m) * Qpower 2 (e - 30))%Q
      with (inject_Z (Z.abs m * 2 ^ 30 - Z.abs (w_mantissa m) * 2 ^ nbits m) * Qpower 2 (e - 30))%Q.
    + apply Qmult_lt_compat_r; [exact Hp|]. rewrite <- Zlt_Qlt.
      assert (E : 2 ^ nbits m = 2 * 2 ^ (nbits m - 1)).
      { rewrite <- Z.pow_succ_r by lia. f_equal. lia. }
      lia.
    + unfold Z.sub. rewrite inject_Z_plus, inject_Z_opp. ring.
  - now apply w_mantissa_sgn.
Qed.

(** Headers. *)
Lemma be_roundtrip : forall v rest, 0 <= v < 2 ^ 64 -> read_be (write_be v ++ rest) = Ok (v, rest).
Proof.
  intros v rest H. unfold write_be. cbn [app read_be].
  rewrite !Z.shiftr_div_pow2 by lia. f_equal. f_equal.
  change (2 ^ 64) with 18446744073709551616 in H.
  change (2 ^ 56) with 72057594037927936. change (2 ^ 48) with 281474976710656.
  change (2 ^ 40) with 1099511627776. change (2 ^ 32) with 4294967296.
  change (2 ^ 24) with 16777216. change (2 ^ 16) with 65536. change (2 ^ 8) with 256.
  lia.
Qed.

(** Every finite double is m * 2^e in this range. *)
Definition is_double (m e : Z) : Prop := Z.abs m < 2 ^ 53 /\ -1074 <= e <= 971.

Lemma double_exp_ok : forall m e, is_double m e -> exp_ok m e.
Proof.
  intros m e [Hm He]. unfold exp_ok, w_exponent. change (2 ^ 31) with 2147483648.
  destruct (m =? 0) eqn:E; [lia|]. assert (Hz : m <> 0) by lia.
  destruct (nbits_spec m Hz) as (H1 & H2 & H3).
  assert (nbits m - 1 < 53) by (apply (Z.pow_lt_mono_r_iff 2); lia). lia.
Qed.

Lemma header_known : forall magic unknown f rest, length magic = 4%nat ->
  0 <= f < unknown -> f < 2 ^ 64 ->
  read_header magic unknown (magic ++ write_be f ++ rest) = Ok (Some f, rest).
Proof.
  intros magic unknown f rest Hl Hf H64. unfold read_header.
  assert (E1 : firstn 4 (magic ++ write_be f ++ rest) = magic).
  { rewrite <- Hl, firstn_app, Nat.sub_diag, firstn_O, app_nil_r. apply firstn_all. }
  assert (E2 : skipn 4 (magic ++ write_be f ++ rest) = write_be f ++ rest).
  { rewrite <- Hl, skipn_app, Nat.sub_diag, skipn_O, skipn_all. reflexivity. }
  rewrite E1, E2. destruct (list_eq_dec Z.eq_dec magic magic) as [_|C]; [|congruence].
  rewrite be_roundtrip by lia. cbn [obind]. replace (f >=? unknown) with false by lia. reflexivity.
Qed.

Lemma testbit_ge : forall f i, 0 <= f -> 0 <= i -> Z.testbit f i = true -> 2 ^ i <= f.
Proof.
  intros f i Hf Hi Hb. destruct (Z.le_gt_cases (2 ^ i) f) as [H|H]; [exact H|].
  assert (Z.testbit f i = false); [|congruence].
  destruct (Z.eq_dec f 0) as [->|Hz]; [apply Z.testbit_0_l|].
  apply Z.bits_above_log2; [lia|]. apply Z.log2_lt_pow2; lia.
Qed.

Lemma header_unknown : forall magic k f i rest, length magic = 4%nat ->
  0 <= f < 2 ^ 64 -> 0 <= k <= i -> Z.testbit f i = true ->
  read_header magic (2 ^ k) (magic ++ write_be f ++ rest) = Throw.
Proof.
  intros magic k f i rest Hl Hf Hk Hb. unfold read_header.
  assert (E1 : firstn 4 (magic ++ write_be f ++ rest) = magic).
  { rewrite <- Hl, firstn_app, Nat.sub_diag, firstn_O, app_nil_r. apply firstn_all. }
  assert (E2 : skipn 4 (magic ++ write_be f ++ rest) = write_be f ++ rest).
  { rewrite <- Hl, skipn_app, Nat.sub_diag, skipn_O, skipn_all. reflexivity. }
  rewrite E1, E2. destruct (list_eq_dec Z.eq_dec magic magic) as [_|C]; [|congruence].
  rewrite be_roundtrip by lia. cbn [obind].
  assert (H1 := testbit_ge f i ltac:(lia) ltac:(lia) Hb).
  assert (H2 := Z.pow_le_mono_r 2 k i ltac:(lia) ltac:(lia)).
  replace (f >=? 2 ^ k) with true by lia. reflexivity.
Qed.

Lemma header_absent : forall magic unknown inp, firstn 4 inp <> magic ->
  read_header magic unknown inp = Ok (None, inp).
Proof.
  intros magic unknown inp H. unfold read_header.
  destruct (list_eq_dec Z.eq_dec (firstn 4 inp) magic) as [E|_]; [congruence|reflexivity].
Qed.

Lemma header_cut : forall magic unknown r, length magic = 4%nat -> (length r < 8)%nat ->
  read_header magic unknown (magic ++ r) = Throw.
Proof.
  intros magic unknown r Hl Hr. unfold read_header.
  assert (E1 : firstn 4 (magic ++ r) = magic).
  { rewrite <- Hl, firstn_app, Nat.sub_diag, firstn_O, app_nil_r. apply firstn_all. }
  assert (E2 : skipn 4 (magic ++ r) = r).
  { rewrite <- Hl, skipn_app, Nat.sub_diag, skipn_O, skipn_all. reflexivity. }
  rewrite E1, E2. destruct (list_eq_dec Z.eq_dec magic magic) as [_|C]; [|congruence].
  do 8 (destruct r as [|? r]; [reflexivity|]). cbn in Hr. lia.
Qed.
