(** Round trip and truncation of the serialisation format. *)
From Verif Require Import Base SerialiserModel.

(** Range of each integer type. *)
Definition kind_range (k : kind) (z : Z) : Prop :=
  match k with
  | KI64 => - 2 ^ 63 <= z < 2 ^ 63
  | KU64 => 0 <= z < 2 ^ 64
  | KI32 => - 2 ^ 31 <= z < 2 ^ 31
  | KU32 => 0 <= z < 2 ^ 32
  | KChar => -128 <= z < 128
  | KUChar => 0 <= z < 65536
  end.

(** Every pair of elements, the first before the second, is related. *)
Fixpoint ordered (R : sval -> sval -> Prop) (l : list sval) : Prop :=
  match l with
  | [] => True
  | x :: r => Forall (R x) r /\ ordered R r
  end.

Definition lt_key (key : sval -> sval) (x y : sval) : Prop := scmp (key y) (key x) = Gt.
Definition le_key (key : sval -> sval) (x y : sval) : Prop := scmp (key y) (key x) <> Lt.

(** [has_ty t v]: [v] is a value of the C++ type [t]. *)
Fixpoint has_ty (t : ty) (v : sval) {struct t} : Prop :=
  match t, v with
  | TInt k, SInt z => kind_range k z
  | TDouble, SInt z => 0 <= z < 2 ^ 64
  | TPair a b, SPair x y => has_ty a x /\ has_ty b y
  | TSeq a, SSeq l => Z.of_nat (length l) < 2 ^ 64 /\ Forall (has_ty a) l
  | TSet a, SSeq l =>
      Z.of_nat (length l) < 2 ^ 64 /\ Forall (has_ty a) l /\ ordered (lt_key (fun x => x)) l
  | TMap a b, SSeq l =>
      Z.of_nat (length l) < 2 ^ 64
      /\ Forall (fun e => match e with SPair x y => has_ty a x /\ has_ty b y | _ => False end) l
      /\ ordered (lt_key skey) l
  | TMMap a b, SSeq l =>
      Z.of_nat (length l) < 2 ^ 64
      /\ Forall (fun e => match e with SPair x y => has_ty a x /\ has_ty b y | _ => False end) l
      /\ ordered (le_key skey) l
  | _, _ => False
  end.

(** No UTF-16 unit occurs in the type. *)
Fixpoint no_uchar (t : ty) : Prop :=
  match t with
  | TInt k => k <> KUChar
  | TDouble => True
  | TPair a b | TMap a b | TMMap a b => no_uchar a /\ no_uchar b
  | TSeq a | TSet a => no_uchar a
  end.

(** Reading back: exact on any continuation, and an error on any proper prefix. *)
Definition reads {A} (d : list Z -> outcome (A * list Z)) (bs : list Z) (v : A) : Prop :=
  (forall rest, d (bs ++ rest) = Ok (v, rest))
  /\ (forall p q, bs = p ++ q -> q <> [] -> d p = Throw).

Lemma app_prefix_split : forall (x y p q : list Z), x ++ y = p ++ q -> q <> [] ->
  (exists q', x = p ++ q' /\ q' <> []) \/ (exists p', p = x ++ p' /\ y = p' ++ q).
Proof.
  induction x as [|a x IH]; intros y p q H Hq; cbn in H.
  - right. exists p. auto.
  - destruct p as [|b p]; cbn in H.
    + left. exists (a :: x). split; [reflexivity|discriminate].
    + injection H as -> H. destruct (IH y p q H Hq) as [(q' & -> & Hq')|(p' & -> & ->)].
      * left. exists q'. auto.
      * right. exists p'. auto.
Qed.

Lemma reads_bind : forall {A B} (d : list Z -> outcome (A * list Z)) bs v
    (k : A -> list Z -> outcome (B * list Z)) bs' w,
  reads d bs v -> reads (k v) bs' w ->
  reads (fun i => obind (d i) (fun '(x, r) => k x r)) (bs ++ bs') w.
Proof.
  intros A B d bs v k bs' w [H1 H2] [H3 H4]. split.
  - intros rest. rewrite <- app_assoc, H1. cbn [obind]. apply H3.
  - intros p q E Hq. destruct (app_prefix_split _ _ _ _ E Hq) as [(q' & E1 & Hq')|(p' & -> & E2)].
    + rewrite (H2 p q' E1 Hq'). reflexivity.
    + rewrite H1. cbn [obind]. now apply (H4 p' q).
Qed.

Lemma reads_ret : forall {A} (v : A), reads (fun r => Ok (v, r)) [] v.
Proof.
  intros A v. split; [reflexivity|]. intros p q E Hq. destruct p; [|discriminate].
  cbn in E. subst q. congruence.
Qed.

Lemma reads_ext : forall {A} (d d' : list Z -> outcome (A * list Z)) bs v,
  (forall i, d i = d' i) -> reads d bs v -> reads d' bs v.
Proof.
  intros A d d' bs v E [H1 H2]. split; intros; rewrite <- E; [apply H1|eapply H2; eauto].
Qed.

Lemma reads_map : forall {A B} (d : list Z -> outcome (A * list Z)) bs v (f : A -> B),
  reads d bs v -> reads (fun i => obind (d i) (fun '(x, r) => Ok (f x, r))) bs (f v).
Proof.
  intros A B d bs v f H. rewrite <- (app_nil_r bs).
  apply (reads_bind d bs v (fun x r => Ok (f x, r)) [] (f v) H). apply reads_ret.
Qed.

(** Integers. *)
Lemma pow8 : forall k, 2 ^ (8 * Z.of_nat (S k)) = 2 ^ (8 * Z.of_nat k) * 256.
Proof.
  intros k. rewrite Nat2Z.inj_succ. replace (8 * Z.succ (Z.of_nat k)) with (8 * Z.of_nat k + 8) by lia.
  rewrite Z.pow_add_r by lia. reflexivity.
Qed.

Lemma get_put_bytes : forall bits n v acc rest, 0 <= bits -> 0 <= acc < 2 ^ bits ->
  get_bytes bits n (put_bytes n v ++ rest) acc
  = Ok ((acc + v mod 2 ^ (8 * Z.of_nat n)) mod 2 ^ bits, rest).
Proof.
  intros bits n v. induction n as [|k IH]; intros acc rest Hb Ha.
  - cbn [get_bytes put_bytes app]. change (8 * Z.of_nat 0) with 0. rewrite Z.pow_0_r, Z.mod_1_r, Z.add_0_r.
    rewrite Z.mod_small by lia. reflexivity.
  - cbn [get_bytes put_bytes app].
    assert (Hp : 0 < 2 ^ bits) by lia.
    assert (Hq : 0 < 2 ^ (8 * Z.of_nat k)) by (apply Z.pow_pos_nonneg; lia).
    rewrite IH by (lia || apply Z.mod_pos_bound; lia). do 2 f_equal.
    rewrite Z.add_mod_idemp_l by lia. f_equal.
    rewrite Z.shiftl_mul_pow2, Z.shiftr_div_pow2 by lia. rewrite pow8.
    rewrite Z.rem_mul_r by lia. lia.
Qed.

Lemma get_put_prefix : forall bits n v acc p q, put_bytes n v = p ++ q -> q <> [] ->
  get_bytes bits n p acc = Throw.
Proof.
  intros bits n v. induction n as [|k IH]; intros acc p q E Hq; cbn [put_bytes] in E.
  - destruct p; [cbn in E; congruence|discriminate].
  - destruct p as [|b p]; [reflexivity|]. cbn [get_bytes]. injection E as _ E. now apply (IH _ p q).
Qed.

Lemma csize_spec : forall fuel k v m, 0 <= v -> (1 <= m)%nat ->
  v < 2 ^ (8 * Z.of_nat m) -> (k < m)%nat -> (m <= k + fuel)%nat ->
  (S k <= csize_loop fuel k v <= m)%nat /\ v < 2 ^ (8 * Z.of_nat (csize_loop fuel k v)).
Proof.
  induction fuel as [|f IH]; intros k v m Hv Hm Hlt Hk Hf; [lia|].
  cbn [csize_loop]. rewrite Z.shiftr_div_pow2 by lia.
  assert (Hq : 0 < 2 ^ (8 * Z.of_nat k)) by (apply Z.pow_pos_nonneg; lia).
  destruct (v / 2 ^ (8 * Z.of_nat k) >? 255) eqn:E.
  - assert (Hkm : (S k < m)%nat).
    { destruct (Nat.eq_dec (S k) m) as [Em|]; [|lia]. subst m. exfalso.
      rewrite pow8 in Hlt.
      assert (v / 2 ^ (8 * Z.of_nat k) < 256) by (apply Z.div_lt_upper_bound; lia).
      apply Z.gtb_lt in E. clear - E H. lia. }
    destruct (IH (S k) v m Hv Hm Hlt Hkm ltac:(lia)) as (H1 & H2). split; [lia|exact H2].
  - split; [lia|]. rewrite pow8.
    assert (v / 2 ^ (8 * Z.of_nat k) <= 255).
    { rewrite Z.gtb_ltb in E. apply Z.ltb_ge in E. exact E. }
    assert (Hd := Z.div_mod v (2 ^ (8 * Z.of_nat k)) ltac:(lia)).
    assert (Hmb := Z.mod_pos_bound v (2 ^ (8 * Z.of_nat k)) Hq).
    set (d := v / 2 ^ (8 * Z.of_nat k)) in *. set (md := v mod 2 ^ (8 * Z.of_nat k)) in *.
    set (p := 2 ^ (8 * Z.of_nat k)) in *. clearbody d md p. clear - Hd Hmb H Hq. nia.
Qed.

Lemma int_reads : forall bits v, bits = 64 \/ bits = 8 \/ bits = 16 -> 0 <= v < 2 ^ bits ->
  reads (int_deserialise bits) (int_serialise v) v.
Proof.
  intros bits v Hb Hv.
  assert (Hs : exists m, (1 <= m <= 8)%nat /\ bits = 8 * Z.of_nat m
                 /\ Z.of_nat m <= (if bits =? 64 then 8 else 4)).
  { destruct Hb as [->|[->| ->]]; [exists 8%nat|exists 1%nat|exists 2%nat]; cbn; lia. }
  destruct Hs as (m & Hm & Em & Hmb).
  destruct (csize_spec 8 0 v m ltac:(lia) ltac:(lia) ltac:(rewrite <- Em; lia) ltac:(lia) ltac:(lia))
    as (H1 & H2). fold (compressedSize v) in H1, H2.
  assert (Hc : (Z.of_nat (compressedSize v) >? (if bits =? 64 then 8 else 4)) = false) by lia.
  split.
  - intros rest. unfold int_serialise, int_deserialise. cbn [app]. rewrite Hc.
    rewrite Nat2Z.id, get_put_bytes by lia. rewrite Z.add_0_l.
    rewrite (Z.mod_small v (2 ^ (8 * _))) by lia. rewrite Z.mod_small by lia. reflexivity.
  - intros p q E Hq. unfold int_serialise in E. destruct p as [|b p]; [reflexivity|].
    injection E as <- E. unfold int_deserialise. rewrite Hc, Nat2Z.id.
    eapply get_put_prefix; eauto.
Qed.

Lemma from_wire_ok : forall k z, k <> KUChar -> kind_range k z ->
  from_wire k (z mod 2 ^ ser_bits k) = z.
Proof.
  intros k z Hk Hz. destruct k; cbn [from_wire ser_bits kind_range] in *; try congruence;
    unfold to_signed;
    change (2 ^ (64 - 1)) with 9223372036854775808; change (2 ^ (32 - 1)) with 2147483648;
    change (2 ^ (8 - 1)) with 128;
    change (2 ^ 64) with 18446744073709551616 in *; change (2 ^ 63) with 9223372036854775808 in *;
    change (2 ^ 32) with 4294967296 in *; change (2 ^ 31) with 2147483648 in *;
    change (2 ^ 8) with 256.
  - destruct (_ <? _) eqn:E; lia.
  - lia.
  - destruct (_ <? _) eqn:E; lia.
  - lia.
  - destruct (_ <? _) eqn:E; lia.
Qed.

Lemma ser_bits_cases : forall k, ser_bits k = 64 \/ ser_bits k = 8 \/ ser_bits k = 16.
Proof. intros []; cbn; auto. Qed.

(** Containers. *)
Lemma ordered_app : forall R l x, ordered R (l ++ [x]) <-> ordered R l /\ Forall (fun y => R y x) l.
Proof.
  induction l as [|y l IH]; intros x; cbn [app ordered].
  - split; auto.
  - rewrite IH, Forall_app. split.
    + intros ((H1 & H2) & H3 & H4). inversion H2; subst. auto.
    + intros ((H1 & H2) & H3). inversion H3; subst. auto.
Qed.

Lemma insert_unique_end : forall key x l, Forall (fun y => lt_key key y x) l ->
  insert_unique key x l = l ++ [x].
Proof.
  intros key x l H. induction H as [|y l Hy Hl IH]; [reflexivity|]. cbn [insert_unique app].
  unfold lt_key in Hy. now rewrite Hy, IH.
Qed.

Lemma insert_equal_end : forall key x l, Forall (fun y => le_key key y x) l ->
  insert_equal key x l = l ++ [x].
Proof.
  intros key x l H. induction H as [|y l Hy Hl IH]; [reflexivity|]. cbn [insert_equal app].
  unfold le_key in Hy. destruct (scmp (key x) (key y)); congruence || now rewrite IH.
Qed.

(** Reading back a list of elements; [ins] appends as long as [good] holds. *)
Lemma read_elems_reads : forall (enc : sval -> list Z) (d : list Z -> outcome (sval * list Z)) ins
    (good : list sval -> Prop),
  (forall l x, good (l ++ [x]) -> good l /\ ins l x = l ++ [x]) ->
  forall l acc, Forall (fun x => reads d (enc x) x) l -> good (acc ++ l) ->
  reads (read_elems d ins (length l) acc) (flat_map enc l) (SSeq (acc ++ l)).
Proof.
  intros enc d ins good Hins.
  assert (Hpre : forall l acc, good (acc ++ l) -> good acc).
  { induction l as [|x l IH]; intros acc H; [now rewrite app_nil_r in H|].
    change (x :: l) with ([x] ++ l) in H. rewrite app_assoc in H. apply IH in H.
    now destruct (Hins acc x H). }
  induction l as [|x l IH]; intros acc Hl Hg; cbn [length flat_map].
  - rewrite app_nil_r. apply reads_ret.
  - inversion Hl as [|? ? Hx Hr]; subst.
    change (x :: l) with ([x] ++ l) in Hg |- *. rewrite app_assoc in Hg |- *.
    assert (Hx1 := Hpre l (acc ++ [x]) Hg). destruct (Hins acc x Hx1) as [_ Hi].
    apply (reads_ext (fun i => obind (d i) (fun '(y, r) => read_elems d ins (length l) (ins acc y) r)));
      [reflexivity|].
    apply (reads_bind d (enc x) x (fun y r => read_elems d ins (length l) (ins acc y) r)); [exact Hx|].
    cbn beta. rewrite Hi. apply IH; assumption.
Qed.

Lemma count_reads : forall (l : list sval) (k : nat -> list Z -> outcome (sval * list Z)) bs w,
  Z.of_nat (length l) < 2 ^ 64 -> reads (k (length l)) bs w ->
  reads (fun i => obind (int_deserialise 64 i) (fun '(n, r) => k (Z.to_nat n) r))
    (int_serialise (Z.of_nat (length l) mod 2 ^ 64) ++ bs) w.
Proof.
  intros l k bs w Hl Hk. rewrite Z.mod_small by lia.
  apply (reads_bind (int_deserialise 64) _ (Z.of_nat (length l)) (fun n r => k (Z.to_nat n) r)).
  - apply int_reads; [auto|lia].
  - cbn beta. rewrite Nat2Z.id. exact Hk.
Qed.

Lemma pair_reads : forall (da db : list Z -> outcome (sval * list Z)) ba bb x y,
  reads da ba x -> reads db bb y ->
  reads (fun i => obind (da i) (fun '(x, r) => obind (db r) (fun '(y, r) => Ok (SPair x y, r))))
    (ba ++ bb) (SPair x y).
Proof.
  intros da db ba bb x y Ha Hb.
  apply (reads_bind da ba x (fun x r => obind (db r) (fun '(y, r) => Ok (SPair x y, r)))); [exact Ha|].
  cbn beta. apply (reads_map db bb y (SPair x)). exact Hb.
Qed.

Lemma Forall_mp : forall {A} (P Q : A -> Prop) l, (forall x, P x -> Q x) -> Forall P l -> Forall Q l.
Proof. intros A P Q l H. apply Forall_impl. exact H. Qed.

Lemma map_elems_reads : forall a b l,
  (forall v, has_ty a v -> reads (deserialise a) (serialise a v) v) ->
  (forall v, has_ty b v -> reads (deserialise b) (serialise b v) v) ->
  Forall (fun e => match e with SPair x y => has_ty a x /\ has_ty b y | _ => False end) l ->
  Forall (fun x => reads (fun i => obind (deserialise a i) (fun '(x, r) =>
                      obind (deserialise b r) (fun '(y, r) => Ok (SPair x y, r))))
                    (match x with SPair x y => serialise a x ++ serialise b y | _ => [] end) x) l.
Proof.
  intros a b l Ha Hb. apply Forall_impl. intros e He. destruct e as [z|x y|q]; try contradiction.
  destruct He as [Hx Hy]. apply pair_reads; auto.
Qed.

Lemma serialise_reads : forall t v, no_uchar t -> has_ty t v ->
  reads (deserialise t) (serialise t v) v.
Proof.
  induction t as [k| |a IHa b IHb|a IHa|a IHa|a IHa b IHb|a IHa b IHb]; intros v Hn Hv;
    destruct v as [z|x y|l]; cbn [has_ty] in Hv; try contradiction; cbn [no_uchar] in Hn.
  - cbn [serialise].
    apply (reads_ext (fun i => obind (int_deserialise (ser_bits k) i)
                        (fun '(u, r) => Ok (SInt (from_wire k u), r)))); [reflexivity|].
    rewrite <- (from_wire_ok k z Hn Hv) at 2.
    apply (reads_map (int_deserialise (ser_bits k)) _ _ (fun u => SInt (from_wire k u))).
    apply int_reads; [apply ser_bits_cases|]. apply Z.mod_pos_bound.
    destruct k; reflexivity.
  - cbn [serialise].
    apply (reads_ext (fun i => obind (int_deserialise 64 i) (fun '(u, r) => Ok (SInt u, r))));
      [reflexivity|].
    rewrite Z.mod_small by lia. apply (reads_map (int_deserialise 64) _ _ SInt).
    apply int_reads; [auto|lia].
  - destruct Hn, Hv. cbn [serialise].
    apply (pair_reads (deserialise a) (deserialise b)); auto.
  - destruct Hv as [Hl Hv]. cbn [serialise].
    apply (count_reads l (fun n r => read_elems (deserialise a) (container_insert (TSeq a)) n [] r));
      [exact Hl|].
    apply (read_elems_reads (serialise a) (deserialise a) (container_insert (TSeq a)) (fun _ => True));
      [split; auto| |exact I].
    revert Hv. apply Forall_impl. auto.
  - destruct Hv as (Hl & Hv & Ho). cbn [serialise].
    apply (count_reads l (fun n r => read_elems (deserialise a) (container_insert (TSet a)) n [] r));
      [exact Hl|].
    apply (read_elems_reads (serialise a) (deserialise a) (container_insert (TSet a))
             (ordered (lt_key (fun x => x)))).
    + intros q x Hq. apply ordered_app in Hq as [H1 H2]. split; [exact H1|].
      now apply insert_unique_end.
    + revert Hv. apply Forall_impl. auto.
    + exact Ho.
  - destruct Hn as [Hna Hnb], Hv as (Hl & Hv & Ho). cbn [serialise].
    apply (count_reads l (fun n r => read_elems _ (container_insert (TMap a b)) n [] r)); [exact Hl|].
    apply (read_elems_reads _ _ (container_insert (TMap a b)) (ordered (lt_key skey))).
    + intros q x Hq. apply ordered_app in Hq as [H1 H2]. split; [exact H1|].
      now apply insert_unique_end.
    + apply map_elems_reads; auto.
    + exact Ho.
  - destruct Hn as [Hna Hnb], Hv as (Hl & Hv & Ho). cbn [serialise].
    apply (count_reads l (fun n r => read_elems _ (container_insert (TMMap a b)) n [] r)); [exact Hl|].
    apply (read_elems_reads _ _ (container_insert (TMMap a b)) (ordered (le_key skey))).
    + intros q x Hq. apply ordered_app in Hq as [H1 H2]. split; [exact H1|].
      now apply insert_equal_end.
    + apply map_elems_reads; auto.
    + exact Ho.
Qed.

(** UTF-16 strings: what really comes back. *)
Definition uchar_back (u : Z) : Z := to_signed 8 u mod 2 ^ 16.

Lemma ustring_reads : forall l, Z.of_nat (length l) < 2 ^ 64 ->
  Forall (fun u => 0 <= u < 65536) l ->
  reads (deserialise ty_ustring) (serialise ty_ustring (SSeq (map SInt l)))
    (SSeq (map (fun u => SInt (uchar_back u)) l)).
Proof.
  intros l Hl Hu. unfold ty_ustring. cbn [serialise].
  rewrite <- (map_length SInt) in Hl.
  apply (count_reads (map SInt l)
    (fun n r => read_elems (deserialise (TInt KUChar)) (container_insert ty_ustring) n [] r)); [exact Hl|].
  rewrite map_length. clear Hl.
  assert (G : forall acc, reads
     (read_elems (deserialise (TInt KUChar)) (container_insert ty_ustring) (length l) acc)
     (flat_map (serialise (TInt KUChar)) (map SInt l))
     (SSeq (acc ++ map (fun u => SInt (uchar_back u)) l))); [|apply G].
  induction Hu as [|u l Hu Hl IH]; intros acc; cbn [map length flat_map].
  - rewrite app_nil_r. apply reads_ret.
  - change (SInt (uchar_back u) :: map (fun u => SInt (uchar_back u)) l)
      with ([SInt (uchar_back u)] ++ map (fun u => SInt (uchar_back u)) l).
    rewrite app_assoc.
    apply (reads_bind (deserialise (TInt KUChar)) _ (SInt (uchar_back u))
      (fun y r => read_elems (deserialise (TInt KUChar)) (container_insert ty_ustring) (length l)
                    (container_insert ty_ustring acc y) r)).
    + cbn [serialise].
      apply (reads_map (int_deserialise 16) _ u (fun w => SInt (from_wire KUChar w))).
      change (2 ^ ser_bits KUChar) with 65536. rewrite Z.mod_small by lia.
      apply int_reads; [auto|]. change (2 ^ 16) with 65536. lia.
    + apply IH.
Qed.

Lemma uchar_back_ascii : forall u, 0 <= u < 128 -> uchar_back u = u.
Proof.
  intros u H. unfold uchar_back, to_signed. change (2 ^ 8) with 256. change (2 ^ (8 - 1)) with 128.
  change (2 ^ 16) with 65536. destruct (_ <? _) eqn:E; lia.
Qed.

Lemma uchar_back_other : forall u, 128 <= u < 65408 -> uchar_back u <> u.
Proof.
  intros u H. unfold uchar_back, to_signed. change (2 ^ 8) with 256. change (2 ^ (8 - 1)) with 128.
  change (2 ^ 16) with 65536. destruct (_ <? _) eqn:E; lia.
Qed.
