(** Properties C06 and C07: the serialisation format. *)
From Verif Require Import Base SerialiserModel SerialiserProofs.

(** * C06 *)
Theorem C06_roundtrip : forall t v rest, no_uchar t -> has_ty t v ->
  deserialise t (serialise t v ++ rest) = Ok (v, rest).
Proof. intros t v rest Hn Hv. exact (proj1 (serialise_reads t v Hn Hv) rest). Qed.

Theorem C06_truncated_refused : forall t v p q, no_uchar t -> has_ty t v ->
  serialise t v = p ++ q -> q <> [] -> deserialise t p = Throw.
Proof. intros t v p q Hn Hv. exact (proj2 (serialise_reads t v Hn Hv) p q). Qed.

Theorem C06_unique : forall t v w, no_uchar t -> has_ty t v -> has_ty t w ->
  serialise t v = serialise t w -> v = w.
Proof.
  intros t v w Hn Hv Hw E.
  assert (H1 := C06_roundtrip t v [] Hn Hv). assert (H2 := C06_roundtrip t w [] Hn Hw).
  rewrite E, H2 in H1. congruence.
Qed.

(** A transition table: state 0 has two arcs with the same tag -3, state 1 none. *)
Definition c06_value : sval :=
  SSeq [ SPair (SInt 0)
           (SSeq [ SPair (SInt (-3)) (SPair (SInt 1) (SInt 4607182418800017408));
                   SPair (SInt (-3)) (SPair (SInt 0) (SInt 0)) ]);
         SPair (SInt 1) (SSeq []) ].

Example C06_example : no_uchar ty_transitions /\ has_ty ty_transitions c06_value
  /\ deserialise ty_transitions (serialise ty_transitions c06_value ++ [7]) = Ok (c06_value, [7]).
Proof.
  split; [repeat split; discriminate|]. split.
  - repeat (split || constructor || discriminate || cbn; try lia).
  - reflexivity.
Qed.

Example C06_extremes :
  deserialise (TPair (TInt KI64) (TInt KU64))
    (serialise (TPair (TInt KI64) (TInt KU64)) (SPair (SInt (- 2 ^ 63)) (SInt (2 ^ 64 - 1))))
  = Ok (SPair (SInt (- 2 ^ 63)) (SInt (2 ^ 64 - 1)), []).
Proof. reflexivity. Qed.

(** * C07: false of the code, because [Deserialiser<UChar>] returns a [char]. *)
Theorem C07_refuted : exists s,
  Forall (fun u => 0 <= u < 65536) s
  /\ exists s', deserialise ty_ustring (serialise ty_ustring (SSeq (map SInt s))) = Ok (s', [])
                /\ s' <> SSeq (map SInt s).
Proof.
  exists [0xE9]. split; [constructor; [lia|constructor]|]. eexists.
  split; [reflexivity|discriminate].
Qed.

(** What holds: exactly the 7-bit units and the units 0xFF80..0xFFFF survive; any other
    unit comes back as its low byte, sign-extended. *)
Theorem C07_ascii_roundtrip_partial : forall s rest, Z.of_nat (length s) < 2 ^ 64 ->
  Forall (fun u => 0 <= u < 128) s ->
  deserialise ty_ustring (serialise ty_ustring (SSeq (map SInt s)) ++ rest)
  = Ok (SSeq (map SInt s), rest).
Proof.
  intros s rest Hl Hs.
  assert (Hu : Forall (fun u => 0 <= u < 65536) s)
    by (revert Hs; apply Forall_impl; intros; lia).
  rewrite (proj1 (ustring_reads s Hl Hu)). do 3 f_equal.
  apply map_ext_Forall. revert Hs. apply Forall_impl. intros u H. now rewrite uchar_back_ascii.
Qed.

Theorem C07_what_comes_back : forall s rest, Z.of_nat (length s) < 2 ^ 64 ->
  Forall (fun u => 0 <= u < 65536) s ->
  deserialise ty_ustring (serialise ty_ustring (SSeq (map SInt s)) ++ rest)
  = Ok (SSeq (map (fun u => SInt (if u mod 256 <? 128 then u mod 256
                                  else 65536 - 256 + u mod 256)) s), rest).
Proof.
  intros s rest Hl Hs. rewrite (proj1 (ustring_reads s Hl Hs)). do 3 f_equal.
  apply map_ext_Forall. revert Hs. apply Forall_impl. intros u H. f_equal.
  unfold uchar_back, to_signed. change (2 ^ 8) with 256. change (2 ^ (8 - 1)) with 128.
  change (2 ^ 16) with 65536. destruct (_ <? _) eqn:E; lia.
Qed.

Theorem C07_other_units_change : forall u, 128 <= u < 65408 ->
  deserialise ty_ustring (serialise ty_ustring (SSeq [SInt u])) <> Ok (SSeq [SInt u], []).
Proof.
  intros u H E.
  assert (R := proj1 (ustring_reads [u] ltac:(cbn; lia) ltac:(repeat constructor; lia)) []).
  rewrite app_nil_r in R. cbn [map] in R. rewrite E in R. injection R as R.
  now apply (uchar_back_other u H).
Qed.

Example C07_example : deserialise ty_ustring (serialise ty_ustring (SSeq [SInt 97; SInt 0xE9]))
  = Ok (SSeq [SInt 97; SInt 0xFFE9], []).
Proof. reflexivity. Qed.

Print Assumptions C06_roundtrip.
Print Assumptions C06_truncated_refused.
Print Assumptions C06_unique.
Print Assumptions C07_refuted.
Print Assumptions C07_ascii_roundtrip_partial.
Print Assumptions C07_what_comes_back.
Print Assumptions C07_other_units_change.
