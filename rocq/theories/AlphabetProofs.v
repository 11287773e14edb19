(** Invariants and round trips of the alphabet. *)
From Verif Require Import Base CompressionModel CompressionProofs StringCodecProofs
  SerialiserModel SerialiserProofs AlphabetModel.

Section Zidx.
  Context {K : Type} (f : nat -> Z).
  (** The list numbered from [i]. *)
  Fixpoint zidx (i : nat) (l : list K) : list (K * Z) :=
    match l with
    | [] => []
    | x :: r => (x, f i) :: zidx (S i) r
    end.

  Lemma zidx_length : forall l i, length (zidx i l) = length l.
  Proof. induction l; intros i; cbn; auto. Qed.

  Lemma zidx_app : forall l i x, zidx i (l ++ [x]) = zidx i l ++ [(x, f (i + length l)%nat)].
  Proof.
    induction l as [|y l IH]; intros i x; cbn [zidx app length].
    - now rewrite Nat.add_0_r.
    - rewrite IH. do 5 f_equal. lia.
  Qed.

  Context (dec : forall a b : K, {a = b} + {a <> b}).

  Lemma find_zidx_none : forall l i k, map_find dec k (zidx i l) = None <-> ~ In k l.
  Proof.
    induction l as [|y l IH]; intros i k; cbn [zidx map_find].
    - split; auto.
    - destruct (dec k y) as [->|Hn].
      + split; [discriminate|]. intros H. exfalso. apply H. now left.
      + rewrite IH. split; intros H; [intros [E|E]; [congruence|auto]|].
        intros E. apply H. now right.
  Qed.

  Lemma find_zidx_some : forall l i k c, map_find dec k (zidx i l) = Some c ->
    exists j, nth_error l j = Some k /\ c = f (i + j)%nat.
  Proof.
    induction l as [|y l IH]; intros i k c; cbn [zidx map_find]; [discriminate|].
    destruct (dec k y) as [->|Hn].
    - intros [= <-]. exists 0%nat. now rewrite Nat.add_0_r.
    - intros H. destruct (IH (S i) k c H) as (j & H1 & H2). exists (S j). split; [exact H1|].
      now rewrite Nat.add_succ_r.
  Qed.

  Lemma find_zidx_nth : forall l i k j, NoDup l -> nth_error l j = Some k ->
    map_find dec k (zidx i l) = Some (f (i + j)%nat).
  Proof.
    induction l as [|y l IH]; intros i k j Hnd Hj; [destruct j; discriminate|].
    inversion Hnd as [|? ? Hy Hl]; subst. cbn [zidx map_find]. destruct j as [|j]; cbn in Hj.
    - injection Hj as ->. destruct (dec k k); [|congruence]. now rewrite Nat.add_0_r.
    - destruct (dec k y) as [->|Hn].
      + exfalso. apply Hy. eapply nth_error_In; eauto.
      + rewrite (IH (S i) k j Hl Hj). now rewrite Nat.add_succ_r.
  Qed.

End Zidx.

Lemma set_absent : forall {K} (dec : forall a b : K, {a = b} + {a <> b}) m k v,
  map_find dec k m = None -> map_set dec k v m = m ++ [(k, v)].
Proof.
  induction m as [|[k' v'] m IH]; intros k v H; [reflexivity|]. cbn [map_find map_set] in *.
  destruct (dec k k'); [discriminate|]. rewrite IH by exact H. reflexivity.
Qed.

Definition tag_of (i : nat) : Z := - (Z.of_nat i + 1).

(** The maps are exactly the numbering of the vectors, which have no repetition. *)
Definition alph_inv (a : alphabet) : Prop :=
  slexic a = zidx tag_of 0 (slexicinv a) /\ NoDup (slexicinv a)
  /\ spair a = zidx Z.of_nat 0 (spairinv a) /\ NoDup (spairinv a).

Definition alph_inv0 (a : alphabet) : Prop :=
  alph_inv a /\ nth_error (spairinv a) 0 = Some (0, 0).

Lemma NoDup_snoc : forall {A} (l : list A) x, NoDup l -> ~ In x l -> NoDup (l ++ [x]).
Proof.
  intros A l x Hl Hx. apply NoDup_rev in Hl. rewrite <- (rev_involutive (l ++ [x])).
  apply NoDup_rev. rewrite rev_app_distr. cbn. constructor; [|exact Hl].
  now rewrite <- in_rev.
Qed.

Lemma include_cases : forall s a, alph_inv a ->
  (In s (slexicinv a) /\ includeSymbol s a = a)
  \/ (~ In s (slexicinv a)
      /\ includeSymbol s a
         = mkAlphabet (zidx tag_of 0 (slexicinv a ++ [s])) (slexicinv a ++ [s])
             (spair a) (spairinv a)).
Proof.
  intros s a (H1 & H2 & _). unfold includeSymbol.
  destruct (map_find ustr_eq_dec s (slexic a)) as [c|] eqn:E.
  - left. split; [|reflexivity]. rewrite H1 in E. apply find_zidx_some in E as (j & Hj & _).
    eapply nth_error_In; eauto.
  - right. assert (E' := E). rewrite H1 in E'. apply find_zidx_none in E'. split; [exact E'|].
    rewrite (set_absent ustr_eq_dec) by exact E. rewrite zidx_app, H1, zidx_length. reflexivity.
Qed.

Lemma pair_cases : forall p a, alph_inv a ->
  (In p (spairinv a) /\ snd (pair_code p a) = a)
  \/ (~ In p (spairinv a)
      /\ snd (pair_code p a)
         = mkAlphabet (slexic a) (slexicinv a) (zidx Z.of_nat 0 (spairinv a ++ [p]))
             (spairinv a ++ [p])).
Proof.
  intros p a (_ & _ & H1 & H2). unfold pair_code.
  destruct (map_find pair_eq_dec p (spair a)) as [c|] eqn:E.
  - left. split; [|reflexivity]. rewrite H1 in E. apply find_zidx_some in E as (j & Hj & _).
    eapply nth_error_In; eauto.
  - right. assert (E' := E). rewrite H1 in E'. apply find_zidx_none in E'. split; [exact E'|].
    cbn [snd]. rewrite (set_absent pair_eq_dec) by exact E. rewrite zidx_app, H1, zidx_length.
    reflexivity.
Qed.

Lemma include_inv : forall s a, alph_inv a -> alph_inv (includeSymbol s a).
Proof.
  intros s a H. destruct (include_cases s a H) as [[_ ->]|[Hn ->]]; [exact H|].
  destruct H as (H1 & H2 & H3 & H4). repeat split; cbn; auto. now apply NoDup_snoc.
Qed.

Lemma pair_inv : forall p a, alph_inv a -> alph_inv (snd (pair_code p a)).
Proof.
  intros p a H. destruct (pair_cases p a H) as [[_ ->]|[Hn ->]]; [exact H|].
  destruct H as (H1 & H2 & H3 & H4). repeat split; cbn; auto. now apply NoDup_snoc.
Qed.

Lemma new_inv : alph_inv0 new_alphabet.
Proof.
  repeat split; cbn; try constructor; auto. constructor.
Qed.

(** Growth: the vectors are only ever extended. *)
Definition extends (a b : alphabet) : Prop :=
  (exists l, slexicinv b = slexicinv a ++ l) /\ (exists l, spairinv b = spairinv a ++ l).

Lemma extends_refl : forall a, extends a a.
Proof. intros a. split; exists []; now rewrite app_nil_r. Qed.

Lemma extends_trans : forall a b c, extends a b -> extends b c -> extends a c.
Proof.
  intros a b c [[l1 E1] [l2 E2]] [[l3 E3] [l4 E4]]. split.
  - exists (l1 ++ l3). now rewrite E3, E1, app_assoc.
  - exists (l2 ++ l4). now rewrite E4, E2, app_assoc.
Qed.

Lemma include_extends : forall s a, alph_inv a -> extends a (includeSymbol s a).
Proof.
  intros s a H. destruct (include_cases s a H) as [[_ ->]|[_ ->]]; [apply extends_refl|].
  split; cbn; [now exists [s]|exists []; now rewrite app_nil_r].
Qed.

Lemma pair_extends : forall p a, alph_inv a -> extends a (snd (pair_code p a)).
Proof.
  intros s a H. destruct (pair_cases s a H) as [[_ ->]|[_ ->]]; [apply extends_refl|].
  split; cbn; [exists []; now rewrite app_nil_r|now exists [s]].
Qed.

Lemma arun_inv : forall a o, alph_inv a -> alph_inv (arun a o) /\ extends a (arun a o).
Proof.
  intros a [s|c|s|k] H; cbn [arun]; auto using include_inv, include_extends, pair_inv,
    pair_extends, extends_refl.
Qed.

Lemma aruns_inv : forall ops a, alph_inv a -> alph_inv (aruns ops a) /\ extends a (aruns ops a).
Proof.
  induction ops as [|o ops IH]; intros a H; cbn [aruns fold_left].
  - auto using extends_refl.
  - destruct (arun_inv a o H) as [H1 H2]. destruct (IH _ H1) as [H3 H4].
    split; [exact H3|]. eapply extends_trans; eauto.
Qed.

Lemma aruns_app : forall l m a, aruns (l ++ m) a = aruns m (aruns l a).
Proof. intros l m a. apply fold_left_app. Qed.

Lemma extends_nth : forall a b, extends a b ->
  (forall i s, nth_error (slexicinv a) i = Some s -> nth_error (slexicinv b) i = Some s)
  /\ (forall i s, nth_error (spairinv a) i = Some s -> nth_error (spairinv b) i = Some s).
Proof.
  intros a b [[l1 E1] [l2 E2]]. split; intros i s H; rewrite ?E1, ?E2;
    rewrite nth_error_app1; auto; apply nth_error_Some; congruence.
Qed.

Lemma inv0_extends : forall a b, alph_inv0 a -> alph_inv b -> extends a b -> alph_inv0 b.
Proof.
  intros a b [_ H] Hb He. split; [exact Hb|]. now apply (extends_nth a b He).
Qed.

(** Codes in terms of positions. *)
Lemma symbol_code_nth : forall a s i, alph_inv a -> nth_error (slexicinv a) i = Some s ->
  symbol_code s a = tag_of i /\ isSymbolDefined s a = true /\ getSymbol (tag_of i) a = Ok s.
Proof.
  intros a s i (H1 & H2 & _) Hi. unfold symbol_code, isSymbolDefined, getSymbol.
  rewrite H1, (find_zidx_nth tag_of ustr_eq_dec _ 0 s i H2 Hi). cbn [Nat.add].
  split; [reflexivity|]. split; [reflexivity|]. unfold tag_of.
  replace (- (Z.of_nat i + 1) =? 0) with false by lia.
  replace (- (Z.of_nat i + 1) <? 0) with true by lia.
  replace (Z.to_nat (- - (Z.of_nat i + 1) - 1)) with i by lia. now rewrite Hi.
Qed.

Lemma include_in : forall s a, alph_inv a -> In s (slexicinv (includeSymbol s a)).
Proof.
  intros s a H. destruct (include_cases s a H) as [[Hi ->]|[_ ->]]; [exact Hi|].
  cbn. apply in_or_app. right. now left.
Qed.

Lemma pair_in : forall p a, alph_inv a -> In p (spairinv (snd (pair_code p a))).
Proof.
  intros s a H. destruct (pair_cases s a H) as [[Hi ->]|[_ ->]]; [exact Hi|].
  cbn. apply in_or_app. right. now left.
Qed.

Lemma pair_code_nth : forall a p i, alph_inv a -> nth_error (spairinv a) i = Some p ->
  pair_code p a = (Z.of_nat i, a) /\ decode (Z.of_nat i) a = Ok p.
Proof.
  intros a p i (_ & _ & H1 & H2) Hi.
  assert (F : map_find pair_eq_dec p (spair a) = Some (Z.of_nat i)).
  { rewrite H1. apply (find_zidx_nth Z.of_nat pair_eq_dec _ 0 p i H2 Hi). }
  unfold pair_code, decode. rewrite F, F.
  split; [reflexivity|]. replace (Z.of_nat i <? 0) with false by lia. now rewrite Nat2Z.id, Hi.
Qed.

Lemma pair_code_fst : forall a p i, alph_inv a ->
  nth_error (spairinv (snd (pair_code p a))) i = Some p -> fst (pair_code p a) = Z.of_nat i.
Proof.
  intros a p i H Hi. assert (H' := pair_inv p a H).
  change (fst (pair_code p a))
    with (match map_find pair_eq_dec p (spair (snd (pair_code p a))) with
          | Some v => v | None => 0 end).
  destruct H' as (_ & _ & H1 & H2). rewrite H1.
  now rewrite (find_zidx_nth Z.of_nat pair_eq_dec _ 0 p i H2 Hi).
Qed.

Lemma defined_iff : forall a s, alph_inv a -> (isSymbolDefined s a = true <-> In s (slexicinv a)).
Proof.
  intros a s H. split.
  - unfold isSymbolDefined. destruct H as (H1 & _). rewrite H1.
    destruct (map_find _ _ _) as [c|] eqn:E; [|discriminate]. intros _.
    apply find_zidx_some in E as (j & Hj & _). eapply nth_error_In; eauto.
  - intros Hi. apply In_nth_error in Hi as [i Hi]. now apply (symbol_code_nth a s i H).
Qed.

(** * File format *)
(** What the writer needs: bracketed tags made of 16-bit units, sizes and symbol codes
    below 2^30 after biasing. *)
Definition tag_ok (s : ustr) : Prop :=
  exists body, s = 60 :: body ++ [62] /\ Forall is_unit body /\ Z.of_nat (length body) < 2 ^ 30.

Definition pair_ok (bias : Z) (p : Z * Z) : Prop :=
  - bias <= fst p < 2 ^ 30 - bias /\ - bias <= snd p < 2 ^ 30 - bias.

Definition alph_ok (a : alphabet) : Prop :=
  Z.of_nat (length (slexicinv a)) < 2 ^ 30 /\ Z.of_nat (length (spairinv a)) < 2 ^ 30
  /\ Forall tag_ok (slexicinv a)
  /\ Forall (pair_ok (Z.of_nat (length (slexicinv a)))) (spairinv a).

Lemma strip_ok : forall body, strip_brackets (60 :: body ++ [62]) = Ok body.
Proof.
  intros body. unfold strip_brackets.
  assert (E : firstn (length (60 :: body ++ [62]) - 2) (body ++ [62]) = body).
  { cbn [length]. rewrite app_length. cbn [length].
    replace (S (length body + 1) - 2)%nat with (length body) by lia.
    rewrite firstn_app, Nat.sub_diag, firstn_all. cbn. apply app_nil_r. }
  destruct (body ++ [62]) eqn:D; [destruct body; discriminate|]. now rewrite E.
Qed.

Lemma tags_roundtrip : forall l acc rest, Forall tag_ok l ->
  slexic acc = zidx tag_of 0 (slexicinv acc) -> NoDup (slexicinv acc ++ l) ->
  exists bs, write_tags l = Ok bs
    /\ read_tags (length l) (bs ++ rest) acc
       = (mkAlphabet (zidx tag_of 0 (slexicinv acc ++ l)) (slexicinv acc ++ l)
            (spair acc) (spairinv acc), rest).
Proof.
  induction l as [|s l IH]; intros acc rest Hl Hs Hnd.
  - exists []. split; [reflexivity|]. cbn. rewrite !app_nil_r, <- Hs. destruct acc; reflexivity.
  - inversion Hl as [|? ? Ht Hr]; subst. destruct Ht as (body & -> & Hu & Hlen).
    destruct (string_roundtrip body Hu Hlen) as (b & Hb & _ & Hrd).
    cbn [write_tags length read_tags]. rewrite strip_ok. cbn [obind]. rewrite Hb. cbn [obind].
    assert (Hni : ~ In (60 :: body ++ [62]) (slexicinv acc)).
    { apply NoDup_remove_2 in Hnd. intros H. apply Hnd. apply in_or_app. now left. }
    set (acc' := mkAlphabet (zidx tag_of 0 (slexicinv acc ++ [60 :: body ++ [62]]))
                   (slexicinv acc ++ [60 :: body ++ [62]]) (spair acc) (spairinv acc)).
    destruct (IH acc' rest Hr eq_refl) as (bs & H1 & H2).
    { cbn. now rewrite <- app_assoc. }
    exists (b ++ bs). rewrite H1. split; [reflexivity|].
    rewrite <- app_assoc, Hrd. cbn zeta.
    rewrite (set_absent ustr_eq_dec) by (rewrite Hs; now apply find_zidx_none).
    replace (mkAlphabet _ _ _ _) with acc'.
    + rewrite H2. unfold acc'. cbn. now rewrite <- app_assoc.
    + unfold acc'. f_equal. rewrite zidx_app, Hs. do 3 f_equal. rewrite app_length. cbn [length].
      unfold tag_of. lia.
Qed.

Lemma to_signed32_id : forall z, - 2 ^ 31 <= z < 2 ^ 31 -> to_signed 32 z = z.
Proof.
  intros z H. unfold to_signed. change (2 ^ 32) with 4294967296. change (2 ^ (32 - 1)) with 2147483648.
  change (2 ^ 31) with 2147483648 in H. destruct (_ <? _) eqn:E; lia.
Qed.

Lemma pairs_roundtrip : forall bias l acc rest, 0 <= bias < 2 ^ 30 -> Forall (pair_ok bias) l ->
  spair acc = zidx Z.of_nat 0 (spairinv acc) -> NoDup (spairinv acc ++ l) ->
  exists bs, write_pairs bias l = Ok bs
    /\ read_pairs bias (length l) (bs ++ rest) acc
       = (mkAlphabet (slexic acc) (slexicinv acc)
            (zidx Z.of_nat 0 (spairinv acc ++ l)) (spairinv acc ++ l), rest).
Proof.
  intros bias l. induction l as [|[x y] l IH]; intros acc rest Hbias Hl Hs Hnd.
  - exists []. split; [reflexivity|]. cbn. rewrite !app_nil_r, <- Hs. destruct acc; reflexivity.
  - inversion Hl as [|? ? [Hx Hy] Hr]; subst. cbn [fst snd] in Hx, Hy.
    change (2 ^ 30) with 1073741824 in *.
    assert (Ex : to_uint (x + bias) = x + bias)
      by (unfold to_uint; rewrite Z.mod_small; [reflexivity|]; change (2 ^ 32) with 4294967296; lia).
    assert (Ey : to_uint (y + bias) = y + bias)
      by (unfold to_uint; rewrite Z.mod_small; [reflexivity|]; change (2 ^ 32) with 4294967296; lia).
    destruct (multibyte_roundtrip (x + bias)) as (bx & Wx & _ & _ & Rx);
      [change (2 ^ 30) with 1073741824; lia|].
    destruct (multibyte_roundtrip (y + bias)) as (bY & Wy & _ & _ & Ry);
      [change (2 ^ 30) with 1073741824; lia|].
    cbn [write_pairs length read_pairs]. rewrite Ex, Ey, Wx. cbn [obind]. rewrite Wy. cbn [obind].
    assert (Hni : ~ In (x, y) (spairinv acc)).
    { apply NoDup_remove_2 in Hnd. intros H. apply Hnd. apply in_or_app. now left. }
    set (acc' := mkAlphabet (slexic acc) (slexicinv acc)
                   (zidx Z.of_nat 0 (spairinv acc ++ [(x, y)])) (spairinv acc ++ [(x, y)])).
    destruct (IH acc' rest Hbias Hr eq_refl) as (bs & H1 & H2).
    { cbn. now rewrite <- app_assoc. }
    exists (bx ++ bY ++ bs). rewrite H1. split; [reflexivity|].
    rewrite <- !app_assoc, Rx, Ry. cbn zeta.
    replace (x + bias - bias) with x by lia. replace (y + bias - bias) with y by lia.
    rewrite !to_signed32_id by (change (2 ^ 31) with 2147483648; lia).
    rewrite (set_absent pair_eq_dec) by (rewrite Hs; now apply find_zidx_none).
    replace (mkAlphabet _ _ _ _) with acc'.
    + rewrite H2. unfold acc'. cbn. now rewrite <- app_assoc.
    + unfold acc'. f_equal. rewrite zidx_app, Hs. now rewrite zidx_length.
Qed.

Lemma alphabet_roundtrip : forall a, alph_inv a -> alph_ok a ->
  exists bs, alphabet_write a = Ok bs /\ forall rest, alphabet_read (bs ++ rest) = (a, rest).
Proof.
  intros a (I1 & I2 & I3 & I4) (O1 & O2 & O3 & O4). change (2 ^ 30) with 1073741824 in *.
  assert (U : forall n, Z.of_nat n < 1073741824 -> to_uint (Z.of_nat n) = Z.of_nat n).
  { intros n Hn. unfold to_uint. rewrite Z.mod_small; [reflexivity|].
    change (2 ^ 32) with 4294967296. lia. }
  unfold alphabet_write. rewrite !U by assumption.
  destruct (multibyte_roundtrip (Z.of_nat (length (slexicinv a)))) as (bn & Wn & _ & _ & Rn);
    [change (2 ^ 30) with 1073741824; lia|].
  destruct (multibyte_roundtrip (Z.of_nat (length (spairinv a)))) as (bm & Wm & _ & _ & Rm);
    [change (2 ^ 30) with 1073741824; lia|].
  rewrite Wn. cbn [obind].
  set (a0 := mkAlphabet [] [] [] []).
  set (a1 := mkAlphabet (slexic a) (slexicinv a) [] []).
  destruct (tags_roundtrip (slexicinv a) a0 [] O3 eq_refl I2) as (bt & Wt & _).
  destruct (pairs_roundtrip (Z.of_nat (length (slexicinv a))) (spairinv a) a1 []) as (bp & Wp & _);
    [change (2 ^ 30) with 1073741824; lia|exact O4|reflexivity|exact I4|].
  rewrite Wt. cbn [obind]. rewrite Wm. cbn [obind]. rewrite Wp. cbn [obind].
  eexists. split; [reflexivity|]. intros rest. unfold alphabet_read.
  rewrite <- !app_assoc, Rn, Nat2Z.id. fold a0.
  destruct (tags_roundtrip (slexicinv a) a0 (bm ++ bp ++ rest) O3 eq_refl I2) as (bt' & Wt' & Rt).
  rewrite Wt in Wt'. injection Wt' as <-. rewrite Rt. cbn [spair spairinv slexicinv a0 app].
  rewrite <- I1. fold a1. rewrite Rm, Nat2Z.id.
  destruct (pairs_roundtrip (Z.of_nat (length (slexicinv a))) (spairinv a) a1 rest)
    as (bp' & Wp' & Rp);
    [change (2 ^ 30) with 1073741824; lia|exact O4|reflexivity|exact I4|].
  rewrite Wp in Wp'. injection Wp' as <-. cbn [slexicinv] in Rp. rewrite Rp. cbn.
  rewrite <- I3. destruct a; reflexivity.
Qed.

(** * Serialisation *)
Definition ascii (s : ustr) : Prop := Forall (fun u => 0 <= u < 128) s /\ Z.of_nat (length s) < 2 ^ 64.

Lemma reads_seq_map : forall {A} t (enc : A -> sval) l,
  Z.of_nat (length l) < 2 ^ 64 ->
  Forall (fun x => reads (deserialise t) (serialise t (enc x)) (enc x)) l ->
  reads (deserialise (TSeq t)) (serialise (TSeq t) (SSeq (map enc l))) (SSeq (map enc l)).
Proof.
  intros A t enc l Hl Hx. cbn [serialise]. rewrite <- (map_length enc) in Hl.
  apply (count_reads (map enc l)
           (fun n r => read_elems (deserialise t) (container_insert (TSeq t)) n [] r)); [exact Hl|].
  apply (read_elems_reads (serialise t) (deserialise t) (container_insert (TSeq t)) (fun _ => True));
    [split; auto| |exact I].
  rewrite Forall_map. exact Hx.
Qed.

Lemma vs_sv_string : forall s, vs_string (sv_string s) = s.
Proof.
  intros s. unfold vs_string, sv_string, vs_list. rewrite map_map. cbn. apply map_id.
Qed.

Lemma map_vs_string : forall l, map vs_string (map sv_string l) = l.
Proof. intros l. rewrite map_map. rewrite <- (map_id l) at 2. apply map_ext, vs_sv_string. Qed.

Lemma map_vs_pair : forall l, map vs_pair (map sv_pair l) = l.
Proof.
  intros l. rewrite map_map. rewrite <- (map_id l) at 2. apply map_ext. now intros [x y].
Qed.

Definition int32_pair (p : Z * Z) : Prop :=
  - 2 ^ 31 <= fst p < 2 ^ 31 /\ - 2 ^ 31 <= snd p < 2 ^ 31.

Lemma index_tags_zidx : forall l pre, NoDup (pre ++ l) ->
  index_tags (length pre) l (zidx tag_of 0 pre) = zidx tag_of 0 (pre ++ l).
Proof.
  induction l as [|s l IH]; intros pre Hnd; cbn [index_tags].
  - now rewrite app_nil_r.
  - assert (Hni : ~ In s pre).
    { apply NoDup_remove_2 in Hnd. intros H. apply Hnd. apply in_or_app. now left. }
    rewrite set_absent by now apply find_zidx_none.
    replace (zidx tag_of 0 pre ++ [(s, - Z.of_nat (length pre) - 1)])
      with (zidx tag_of 0 (pre ++ [s])).
    + replace (S (length pre)) with (length (pre ++ [s])) by (rewrite app_length; cbn; lia).
      rewrite IH by now rewrite <- app_assoc. now rewrite <- app_assoc.
    + rewrite zidx_app. cbn [Nat.add]. do 3 f_equal. unfold tag_of. lia.
Qed.

Lemma firstn_snoc : forall {A} (l : list A) i x, nth_error l i = Some x ->
  firstn (S i) l = firstn i l ++ [x].
Proof.
  induction l as [|y l IH]; intros i x H; [destruct i; discriminate|].
  destruct i as [|i]; cbn in H; [injection H as ->; reflexivity|]. cbn [firstn app]. f_equal.
  now apply IH.
Qed.

Lemma index_pairs_zidx : forall n i l, NoDup l -> (i + n <= length l)%nat ->
  index_pairs n i l (zidx Z.of_nat 0 (firstn i l)) = Ok (zidx Z.of_nat 0 (firstn (i + n) l)).
Proof.
  induction n as [|n IH]; intros i l Hnd Hle; cbn [index_pairs].
  - now rewrite Nat.add_0_r.
  - destruct (nth_error l i) as [p|] eqn:E.
    + assert (Hni : ~ In p (firstn i l)).
      { intros H. apply In_nth_error in H as [j Hj].
        assert (Hji : (j < i)%nat).
        { assert (j < length (firstn i l))%nat by (apply nth_error_Some; congruence).
          rewrite firstn_length in H. lia. }
        assert (E' : nth_error l j = Some p).
        { rewrite <- (firstn_skipn i l). rewrite nth_error_app1; [exact Hj|].
          apply nth_error_Some. congruence. }
        assert (i = j); [|lia]. eapply NoDup_nth_error; eauto; [|congruence].
        apply nth_error_Some. congruence. }
      rewrite set_absent by now apply find_zidx_none.
      replace (zidx Z.of_nat 0 (firstn i l) ++ [(p, Z.of_nat i)])
        with (zidx Z.of_nat 0 (firstn (S i) l)).
      * rewrite IH by (assumption || lia). do 3 f_equal. lia.
      * rewrite (firstn_snoc l i p E), zidx_app, firstn_length. do 4 f_equal. lia.
    + apply nth_error_None in E. lia.
Qed.

Lemma index_pairs_ub : forall n i l m, (i <= length l)%nat -> (length l < i + n)%nat ->
  index_pairs n i l m = UB.
Proof.
  induction n as [|n IH]; intros i l m Hi H; [lia|]. cbn [index_pairs].
  destruct (nth_error l i) as [p|] eqn:E; [|reflexivity].
  assert (i < length l)%nat by (apply nth_error_Some; congruence). apply IH; lia.
Qed.

(** What deserialising gives back, for tags made of 7-bit characters. *)
Lemma alphabet_deserialise_result : forall a, alph_inv a ->
  Z.of_nat (length (slexicinv a)) < 2 ^ 64 -> Z.of_nat (length (spairinv a)) < 2 ^ 64 ->
  Forall ascii (slexicinv a) -> Forall int32_pair (spairinv a) ->
  alphabet_deserialise (alphabet_serialise a)
  = if (length (slexicinv a) <=? length (spairinv a))%nat
    then Ok (mkAlphabet (slexic a) (slexicinv a)
               (zidx Z.of_nat 0 (firstn (length (slexicinv a)) (spairinv a))) (spairinv a), [])
    else UB.
Proof.
  intros a (I1 & I2 & I3 & I4) L1 L2 Ht Hp. unfold alphabet_deserialise, alphabet_serialise.
  assert (R1 : reads (deserialise ty_slexicinv) (serialise ty_slexicinv (SSeq (map sv_string (slexicinv a))))
                 (SSeq (map sv_string (slexicinv a)))).
  { apply reads_seq_map; [exact L1|]. revert Ht. apply Forall_impl. intros s [Hs Hl].
    assert (Hu : Forall (fun u => 0 <= u < 65536) s) by (revert Hs; apply Forall_impl; intros; lia).
    assert (R := ustring_reads s Hl Hu). unfold sv_string.
    replace (map (fun u => SInt (uchar_back u)) s) with (map SInt s) in R; [exact R|].
    apply map_ext_Forall. revert Hs. apply Forall_impl. intros u H. now rewrite uchar_back_ascii. }
  assert (R2 : reads (deserialise ty_spairinv) (serialise ty_spairinv (SSeq (map sv_pair (spairinv a))))
                 (SSeq (map sv_pair (spairinv a)))).
  { apply reads_seq_map; [exact L2|]. revert Hp. apply Forall_impl. intros [x y] [Hx Hy].
    apply serialise_reads; [split; discriminate|]. split; assumption. }
  rewrite (proj1 R1). cbn [obind].
  rewrite <- (app_nil_r (serialise ty_spairinv _)), (proj1 R2). cbn [obind vs_list].
  rewrite map_vs_string, map_vs_pair.
  destruct (length (slexicinv a) <=? length (spairinv a))%nat eqn:E.
  - assert (F := index_pairs_zidx (length (slexicinv a)) 0 (spairinv a) I4 ltac:(lia)).
    cbn [firstn zidx Nat.add] in F. rewrite F. cbn [obind].
    assert (G := index_tags_zidx (slexicinv a) [] I2). cbn in G. rewrite G, <- I1. reflexivity.
  - rewrite index_pairs_ub by lia. reflexivity.
Qed.
