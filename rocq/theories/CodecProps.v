(** Properties C01-C05 and C44: the number, string, weight and header formats. *)
From Coq Require Import QArith Qpower Qabs.
From Verif Require Import Base CompressionModel CompressionProofs StringCodecProofs
  WeightCodecProofs.
Open Scope Z_scope.

(** * C01 *)
Theorem C01_integers_roundtrip : forall v rest, 0 <= v < 2 ^ 30 ->
  exists bs, multibyte_write v = Ok bs /\ bytes bs /\ multibyte_read (bs ++ rest) = (v, rest).
Proof.
  intros v rest H. destruct (multibyte_roundtrip v H) as (bs & H1 & H2 & _ & H3).
  exists bs. auto.
Qed.

Theorem C01_large_refused : forall v, 2 ^ 30 <= v -> multibyte_write v = Exit.
Proof. exact mbw_exit. Qed.

Theorem C01_sequences_roundtrip : forall vs rest, Forall (fun v => 0 <= v < 2 ^ 30) vs ->
  exists bs, multibyte_write_list vs = Ok bs
    /\ multibyte_read_list (length vs) (bs ++ rest) = (vs, rest).
Proof.
  intros vs rest H. destruct (multibyte_list_roundtrip vs H) as (bs & H1 & _ & H3).
  exists bs. auto.
Qed.

Example C01_example : multibyte_write_list [5; 1000; 70000; 1073741823]
  = Ok [5; 67; 232; 129; 17; 112; 255; 255; 255; 255].
Proof. reflexivity. Qed.

(** * C02 *)
Theorem C02_unique : forall vs ws bs,
  Forall (fun v => 0 <= v) vs -> Forall (fun v => 0 <= v) ws ->
  multibyte_write_list vs = Ok bs -> multibyte_write_list ws = Ok bs -> vs = ws.
Proof. exact multibyte_unique. Qed.

Theorem C02_prefix_free : forall v w bv bw s, 0 <= v -> 0 <= w ->
  multibyte_write v = Ok bv -> multibyte_write w = Ok bw -> bw = bv ++ s -> v = w /\ s = [].
Proof. exact multibyte_prefix_free. Qed.

Theorem C02_size : forall v, 0 <= v < 2 ^ 30 ->
  exists bs, multibyte_write v = Ok bs /\ (1 <= length bs <= 4)%nat.
Proof.
  intros v H. destruct (multibyte_roundtrip v H) as (bs & H1 & _ & H2 & _). exists bs. auto.
Qed.

Theorem C02_monotone : forall v w bv bw, 0 <= v <= w ->
  multibyte_write v = Ok bv -> multibyte_write w = Ok bw -> (length bv <= length bw)%nat.
Proof. exact multibyte_len_mono. Qed.

Example C02_example : multibyte_write 64 = Ok [64; 64] /\ multibyte_write 16384 = Ok [128; 64; 0].
Proof. split; reflexivity. Qed.

(** * C03: any sequence of 16-bit units, paired surrogates or not. *)
Theorem C03_strings_roundtrip : forall s rest,
  Forall (fun u => 0 <= u < 65536) s -> Z.of_nat (length s) < 2 ^ 30 ->
  exists bs, string_write s = Ok bs /\ string_read (bs ++ rest) = (s, rest).
Proof.
  intros s rest H1 H2. destruct (string_roundtrip s H1 H2) as (bs & H3 & _ & H4).
  exists bs. auto.
Qed.

(** "a", U+1F600 and a lone trail surrogate. *)
Example C03_example :
  string_write [97; 0xD83D; 0xDE00; 0xDC01] = Ok [3; 64; 97; 129; 246; 0; 128; 220; 1]
  /\ string_read [3; 64; 97; 129; 246; 0; 128; 220; 1; 7] = ([97; 0xD83D; 0xDE00; 0xDC01], [7]).
Proof. split; reflexivity. Qed.

(** * C04.  The value of a finite weight is the rational [fval m e] = m * 2^e. *)
Theorem C04_exact : forall m k e rest, is_double (m * 2 ^ k) e -> 0 <= k -> Z.abs m < 2 ^ 30 ->
  exists bs m' e', long_multibyte_write (WFin (m * 2 ^ k) e) = Ok bs
    /\ long_multibyte_read (bs ++ rest) = (WFin m' e', rest)
    /\ (fval m' e' == fval (m * 2 ^ k) e)%Q.
Proof.
  intros m k e rest Hd Hk Hm. assert (He := double_exp_ok _ _ Hd).
  destruct (weight_fin_roundtrip _ _ He) as (bs & H1 & _ & H2).
  assert (Hs := reread_shift m k e Hk). rewrite Hs in H2.
  exists bs, (w_mantissa m), (w_exponent m (e + k) - 30).
  split; [exact H1|]. split; [apply H2|].
  rewrite fval_shift by exact Hk. apply fval_reread_exact; [|exact Hm].
  unfold exp_ok in *. destruct (Z.eq_dec m 0) as [->|Hz]; [unfold w_exponent; cbn; lia|].
  injection Hs as _ Hs. lia.
Qed.

Theorem C04_rounding : forall m e rest, is_double m e -> m <> 0 ->
  exists bs m' e', long_multibyte_write (WFin m e) = Ok bs
    /\ long_multibyte_read (bs ++ rest) = (WFin m' e', rest)
    /\ Z.sgn m' = Z.sgn m
    /\ (Qabs (fval m' e') <= Qabs (fval m e))%Q
    /\ (Qabs (fval m e) - Qabs (fval m' e') < Qabs (fval m e) * Qpower 2 (-29))%Q.
Proof.
  intros m e rest Hd Hz. assert (He := double_exp_ok _ _ Hd).
  destruct (weight_fin_roundtrip _ _ He) as (bs & H1 & _ & H2).
  destruct (fval_reread_error m e He Hz) as (H3 & H4 & H5).
  exists bs, (w_mantissa m), (w_exponent m e - 30). repeat split; auto.
Qed.

Theorem C04_infinities : forall w rest, w = WPInf \/ w = WNInf ->
  exists bs, long_multibyte_write w = Ok bs /\ long_multibyte_read (bs ++ rest) = (w, rest).
Proof.
  intros w rest H. destruct (weight_inf_roundtrip w H) as (bs & H1 & _ & H2). exists bs. auto.
Qed.

(** The default weight 0 and the weight -2.5 = -5 * 2^-1. *)
Example C04_example :
  long_multibyte_write (WFin 0 0) = Ok [0; 0]
  /\ is_double (-5) (-1)
  /\ exists bs, long_multibyte_write (WFin (-5) (-1)) = Ok bs
       /\ long_multibyte_read (bs ++ [9]) = (WFin (-671088640) (-28), [9])
       /\ (fval (-671088640) (-28) == - (5 # 2))%Q.
Proof.
  split; [reflexivity|]. split; [unfold is_double; cbn; lia|].
  eexists. split; [reflexivity|]. split; reflexivity.
Qed.

(** A weight that does not fit is really changed: 2^30 + 1/1 needs 31 bits. *)
Example C04_rounding_happens : exists bs,
  long_multibyte_write (WFin (2 ^ 30 + 1) 0) = Ok bs
  /\ long_multibyte_read bs = (WFin (2 ^ 29) 1, []).
Proof. eexists. split; reflexivity. Qed.

(** * C05 *)
Theorem C05_features_roundtrip : forall magic unknown f rest, length magic = 4%nat ->
  0 <= f < unknown -> f < 2 ^ 64 ->
  read_header magic unknown (magic ++ write_be f ++ rest) = Ok (Some f, rest).
Proof. exact header_known. Qed.

Theorem C05_unknown_refused : forall magic k f i rest, length magic = 4%nat ->
  0 <= f < 2 ^ 64 -> 0 <= k <= i -> Z.testbit f i = true ->
  read_header magic (2 ^ k) (magic ++ write_be f ++ rest) = Throw.
Proof. exact header_unknown. Qed.

Theorem C05_old_format : forall magic unknown inp, firstn 4 inp <> magic ->
  read_header magic unknown inp = Ok (None, inp).
Proof. exact header_absent. Qed.

Theorem C05_cut_header_refused : forall magic unknown r, length magic = 4%nat ->
  (length r < 8)%nat -> read_header magic unknown (magic ++ r) = Throw.
Proof. exact header_cut. Qed.

Example C05_example :
  LTF_UNKNOWN = 2 ^ 0 /\ TDF_UNKNOWN = 2 ^ 1
  /\ read_header HEADER_TRANSDUCER TDF_UNKNOWN
       (HEADER_TRANSDUCER ++ write_be TDF_WEIGHTS ++ [3; 4]) = Ok (Some 1, [3; 4])
  /\ read_header HEADER_TRANSDUCER TDF_UNKNOWN (HEADER_TRANSDUCER ++ write_be 4 ++ [3; 4]) = Throw
  /\ read_header HEADER_LTTOOLBOX LTF_UNKNOWN [2; 64; 97; 64; 98] = Ok (None, [2; 64; 97; 64; 98]).
Proof. repeat split; reflexivity. Qed.

(** * C44 *)
(** UTF-16 as the Unicode standard defines it. *)
Definition utf16_units (c : Z) : list Z :=
  if c <? 0x10000 then [c]
  else [0xD800 + (c - 0x10000) / 1024; 0xDC00 + (c - 0x10000) mod 1024].

Theorem C44_append_is_utf16 : forall s c, is_scalar c -> append_cp s c = s ++ utf16_units c.
Proof.
  intros s c H. unfold utf16_units, is_scalar in *. destruct (c <? 0x10000) eqn:E.
  - apply append_bmp. unfold is_unit. lia.
  - rewrite append_supp by lia. do 2 f_equal. f_equal. lia.
Qed.

Theorem C44_split_after_append : forall cps, Forall is_scalar cps ->
  ustring_to_vec32 (flat_map utf16_units cps) = cps.
Proof.
  intros cps H. rewrite <- (vec32_append cps H) at 2. f_equal.
  assert (G : forall acc, fold_left append_cp cps acc = acc ++ flat_map utf16_units cps).
  { induction H as [|c cps Hc Hcs IH]; intros acc; cbn [fold_left flat_map].
    - now rewrite app_nil_r.
    - rewrite IH, (C44_append_is_utf16 _ _ Hc). now rewrite app_assoc. }
  now rewrite G.
Qed.

Theorem C44_append_after_split : forall s, Forall (fun u => 0 <= u < 65536) s ->
  fold_left append_cp (ustring_to_vec32 s) [] = s.
Proof. intros s H. exact (append_vec32 (length s) s [] (le_n _) H). Qed.

Example C44_example : flat_map utf16_units [97; 0x1F600; 0x10FFFF]
  = [97; 0xD83D; 0xDE00; 0xDBFF; 0xDFFF]
  /\ ustring_to_vec32 [97; 0xD83D; 0xDE00; 0xDBFF; 0xDFFF] = [97; 0x1F600; 0x10FFFF].
Proof. split; reflexivity. Qed.

Print Assumptions C01_integers_roundtrip.
Print Assumptions C01_large_refused.
Print Assumptions C01_sequences_roundtrip.
Print Assumptions C02_unique.
Print Assumptions C02_prefix_free.
Print Assumptions C02_size.
Print Assumptions C02_monotone.
Print Assumptions C03_strings_roundtrip.
Print Assumptions C04_exact.
Print Assumptions C04_rounding.
Print Assumptions C04_infinities.
Print Assumptions C05_features_roundtrip.
Print Assumptions C05_unknown_refused.
Print Assumptions C05_old_format.
Print Assumptions C05_cut_header_refused.
Print Assumptions C44_append_is_utf16.
Print Assumptions C44_split_after_append.
Print Assumptions C44_append_after_split.
