(** C88: dictionaries written to the standard output. *)
From Verif Require Import Base CompressionModel StringCodecProofs SerialiserModel AlphabetModel AlphabetProofs AlphabetProps
  FileModel FileProofs FileProps InputProps TmxSpec TmxProofs StdoutModel.

(** text: no halves of surrogate pairs (Unicode standard, table 3-5) *)
Inductive is_text : list Z -> Prop :=
| tx_none : is_text []
| tx_unit u r : 0 <= u < 65536 -> ~ (55296 <= u < 57344) -> is_text r -> is_text (u :: r)
| tx_pair u v r : 55296 <= u < 56320 -> 56320 <= v < 57344 -> is_text r -> is_text (u :: v :: r).

Lemma text_utf8 : forall s, is_text s -> exists bs, utf16to8 s = Ok bs.
Proof.
  intros s T. induction T as [|u r R N T [bs IH]|u v r R1 R2 T [bs IH]]; [now exists []| |]; cbn [utf16to8].
  - rewrite is_lead_iff, is_trail_iff by (unfold is_unit; lia).
    replace ((55296 <=? u) && (u <? 56320)) with false by lia. replace ((56320 <=? u) && (u <? 57344)) with false by lia.
    rewrite IH. cbn [obind]. eauto.
  - rewrite is_lead_iff, is_trail_iff by (unfold is_unit; lia).
    replace ((55296 <=? u) && (u <? 56320)) with true by lia. replace ((56320 <=? v) && (v <? 57344)) with true by lia.
    rewrite IH. cbn [obind]. eauto.
Qed.

(** * The file *)
Lemma section_events_file : forall l, (forall name t, In (name, t) l -> is_text name) ->
  match write_sections l with
  | Ok bs => exists e, section_events l = Ok e /\ in_file e = bs
  | _ => True
  end.
Proof.
  induction l as [|[name t] l IH]; intro H; cbn [write_sections section_events].
  - now exists [].
  - destruct (string_write name) as [a| | | |]; try exact I. destruct (transducer_write 0 t) as [b| | | |]; try exact I.
    cbn [obind]. specialize (IH (fun n u J => H n u (or_intror J))).
    destruct (write_sections l) as [c| | | |]; try exact I. cbn [obind]. destruct IH as [e [E F]].
    unfold statistics. destruct (text_utf8 name (H name t (or_introl eq_refl))) as [bs ->]. cbn [obind]. rewrite E. cbn [obind].
    eexists. split; [reflexivity|]. unfold in_file in *. cbn [filter map fst snd concat]. now rewrite F.
Qed.
Lemma set_events_file : forall s a l bs, (forall name t, In (name, t) l -> is_text name) ->
  writeTransducerSet s a l = Ok bs -> exists e, set_events s a l = Ok e /\ in_file e = bs.
Proof.
  intros s a l bs T E. unfold writeTransducerSet in E. cbv zeta in E. unfold set_events. unfold section_, ustr in *.
  destruct (string_write s) as [x| | | |]; try discriminate E. cbn [obind] in *.
  destruct (alphabet_write a) as [y| | | |]; try discriminate E. cbn [obind] in *.
  destruct (multibyte_write (to_uint (Z.of_nat (length l)))) as [z| | | |]; try discriminate E. cbn [obind] in *.
  pose proof (section_events_file l T) as S. destruct (write_sections l) as [w| | | |]; try discriminate E.
  destruct S as [e [Se Sf]]. rewrite Se. cbn [obind] in *. injection E as <-. eexists. split; [reflexivity|].
  unfold in_file in *. cbn [filter map fst snd concat]. rewrite Sf. reflexivity.
Qed.

(** Written to a file of its own, a dictionary is read back whatever is printed meanwhile. *)
Theorem C88_file : forall ops s l, let a := after ops in
  alphabet_fits a -> name_ok s -> NoDup (map fst l) -> Z.of_nat (length l) < 2 ^ 30 ->
  (forall name t, In (name, t) l -> is_text name /\ name_ok name /\ file_ok 0 t) ->
  exists e, set_events s a l = Ok e
  /\ exists letters l', readTransducerSet (in_file e) = Ok (letters, a, l', [])
       /\ (forall c, In c letters <-> In c (ustring_to_vec32 s))
       /\ Forall2 (fun x y => fst y = fst x /\ read_back (snd x) (snd y)) l l'.
Proof.
  intros ops s l a A Hs ND Hl H.
  destruct (C12_roundtrip ops s l A Hs ND Hl) as (bs & E & R); [intros name t I; split; now apply H in I|].
  destruct (set_events_file s a l bs) as (e & Ee & Ef); [intros name t I; now apply H in I|exact E|].
  exists e. split; [exact Ee|]. rewrite Ef. destruct (R []) as (letters & l' & X). rewrite app_nil_r in X. eauto.
Qed.
(** On the standard output a dictionary with one section is read back too: the line is behind
    it. *)
Theorem C88_one_section : forall ops s name t, let a := after ops in
  alphabet_fits a -> name_ok s -> is_text name -> name_ok name -> file_ok 0 t ->
  exists e line, set_events s a [(name, t)] = Ok e
  /\ exists letters u, readTransducerSet (in_stdout e) = Ok (letters, a, [(name, u)], line)
       /\ (forall c, In c letters <-> In c (ustring_to_vec32 s)) /\ read_back t u.
Proof.
  intros ops s name t a A Hs T Hn F.
  destruct (C12_roundtrip ops s [(name, t)] A Hs) as (bs & E & R).
  { cbn. constructor; [intros []|constructor]. }
  { cbn. lia. }
  { intros n u [J|[]]. injection J as <- <-. auto. }
  fold a in E, R.
  unfold writeTransducerSet in E. cbv zeta in E. unfold set_events. unfold section_, ustr in *.
  destruct (string_write s) as [x| | | |]; try discriminate E. cbn [obind] in *.
  destruct (alphabet_write a) as [y| | | |]; try discriminate E. cbn [obind] in *.
  destruct (multibyte_write (to_uint (Z.of_nat (length [(name, t)])))) as [z| | | |]; try discriminate E. cbn [obind] in *.
  cbn [write_sections section_events] in *.
  destruct (string_write name) as [p| | | |]; try discriminate E. destruct (transducer_write 0 t) as [q| | | |]; try discriminate E.
  cbn [obind] in *. unfold statistics. destruct (text_utf8 name T) as [nm ->]. cbn [obind] in *.
  apply (f_equal (fun o => match o with Ok v => v | _ => [] end)) in E. cbv beta iota in E. subst bs.
  eexists. eexists. split; [reflexivity|].
  destruct (R (nm ++ [32] ++ FinalsModel.decimal (Z.of_nat (length (f_trans t))) ++ [32]
        ++ FinalsModel.decimal (Z.of_nat (list_sum (map (@length farc) (f_trans t)))) ++ [10])) as (letters & l' & Rd & Rl & Rs).
  inversion Rs as [|? [n' u] ? l2 [N B] Rs']; subst. inversion Rs'; subst. cbn [fst snd] in *. subst n'.
  exists letters, u. split; [|split; [exact Rl|exact B]].
  rewrite <- Rd. f_equal. unfold in_stdout. cbn [map snd concat]. rewrite ?app_nil_r. repeat rewrite <- app_assoc. reflexivity.
Qed.

(** * Several sections *)
Lemma set_keeps : forall (T : Type) (n m : ustr) (t : T) l, In m (map fst l) -> In m (map fst (section_set n t l)).
Proof.
  intros T n m t. induction l as [|[k u] l IH]; intro I; [destruct I|]. cbn [section_set].
  destruct (ustr_eq_dec n k); cbn [map fst] in *; [exact I|]. destruct I as [I|I]; [now left|right; now apply IH].
Qed.
Lemma sections_keep : forall (T : Type) (rd : list Z -> outcome (T * list Z)) n inp acc l r m,
  read_sections rd n inp acc = Ok (l, r) -> In m (map fst acc) -> In m (map fst l).
Proof.
  intros T rd. induction n as [|n IH]; intros inp acc l r m E I; cbn [read_sections] in E.
  - now injection E as <- <-.
  - destruct (string_read inp) as [nm i]. destruct (rd i) as [[t i']| | | |]; try discriminate E. cbn [obind] in E.
    apply (IH _ _ _ _ _ E). now apply set_keeps.
Qed.
Lemma append_grows : forall s c, (length s < length (append_cp s c))%nat.
Proof. intros s c. unfold append_cp. destruct (c <=? 65535); rewrite app_length; cbn; lia. Qed.
Lemma string_loop_length : forall n inp acc, (n + length acc <= length (fst (string_read_loop n inp acc)))%nat.
Proof.
  induction n as [|n IH]; intros inp acc; cbn [string_read_loop]; [cbn; lia|].
  destruct (multibyte_read inp) as [c i]. pose proof (IH i (append_cp acc c)). pose proof (append_grows acc c). lia.
Qed.
Lemma long_name : forall b rest, 65 <= b < 128 -> 0 <= fst (readByte rest) ->
  (256 <= length (fst (string_read (b :: rest))))%nat.
Proof.
  intros b rest R F. unfold string_read.
  assert (M : exists low i, multibyte_read (b :: rest) = (Z.lor low (to_uint (Z.shiftl (Z.land b 63) 8)), i) /\ 0 <= low).
  { unfold multibyte_read. cbn [readByte]. replace (b <? 64) with false by lia. replace (b <? 128) with true by lia.
    destruct rest as [|x rest]; cbn [readByte]; eexists; eexists; (split; [reflexivity|]); [lia|exact F]. }
  destruct M as [low [i [M L]]]. rewrite M.
  assert (G : 256 <= Z.lor low (to_uint (Z.shiftl (Z.land b 63) 8))).
  { assert (E : Z.land b 63 = b - 64).
    { change 63 with (Z.ones 6). rewrite Z.land_ones by lia. change (2 ^ 6) with 64. lia. }
    rewrite E. unfold to_uint. rewrite Z.shiftl_mul_pow2 by lia. change (2 ^ 8) with 256. change (2 ^ 32) with 4294967296.
    rewrite Z.mod_small by lia. assert (256 <= (b - 64) * 256) by lia.
    assert (Le : (b - 64) * 256 <= Z.lor low ((b - 64) * 256)).
    { assert (X : Z.lor low ((b - 64) * 256) = (b - 64) * 256 + Z.ldiff low ((b - 64) * 256)).
      { rewrite Z.add_nocarry_lxor.
        - apply Z.bits_inj'. intros n Hn. rewrite Z.lor_spec, Z.lxor_spec, Z.ldiff_spec.
          destruct (Z.testbit low n), (Z.testbit ((b - 64) * 256) n); reflexivity.
        - apply Z.bits_inj'. intros n Hn. rewrite Z.land_spec, Z.ldiff_spec, Z.bits_0.
          destruct (Z.testbit low n), (Z.testbit ((b - 64) * 256) n); reflexivity. }
      rewrite X. assert (0 <= Z.ldiff low ((b - 64) * 256)) by (apply Z.ldiff_nonneg; auto). lia. }
    lia. }
  pose proof (string_loop_length (Z.to_nat (Z.lor low (to_uint (Z.shiftl (Z.land b 63) 8)))) i []). cbn [length] in H. lia.
Qed.
Lemma utf8_of_nonneg : forall c, 0 <= c -> exists b r, utf8_of c = b :: r /\ 0 <= b.
Proof.
  intros c H. unfold utf8_of. destruct (c <? 128); [eauto|].
  destruct (c <? 2048); [eexists; eexists; split; [reflexivity|]; assert (0 <= c / 64) by (apply Z.div_pos; lia); lia|].
  destruct (c <? 65536); eexists; eexists; (split; [reflexivity|]);
    [assert (0 <= c / 4096) by (apply Z.div_pos; lia)|assert (0 <= c / 262144) by (apply Z.div_pos; lia)]; lia.
Qed.
Lemma utf8_head : forall s bs rest, is_text s -> utf16to8 s = Ok bs -> 0 <= fst (readByte (bs ++ 32 :: rest)).
Proof.
  intros s bs rest T E. destruct T as [|u r R N T|u v r R1 R2 T].
  - injection E as <-. cbn. lia.
  - cbn [utf16to8] in E. rewrite is_lead_iff, is_trail_iff in E by (unfold is_unit; lia).
    replace ((55296 <=? u) && (u <? 56320)) with false in E by lia. replace ((56320 <=? u) && (u <? 57344)) with false in E by lia.
    destruct (utf16to8 r) as [t| | | |]; try discriminate E. cbn [obind] in E. injection E as <-.
    destruct (utf8_of_nonneg u) as (b & q & -> & P); [lia|]. exact P.
  - cbn [utf16to8] in E. rewrite is_lead_iff, is_trail_iff in E by (unfold is_unit; lia).
    replace ((55296 <=? u) && (u <? 56320)) with true in E by lia. replace ((56320 <=? v) && (v <? 57344)) with true in E by lia.
    destruct (utf16to8 r) as [t| | | |]; try discriminate E. cbn [obind] in E. injection E as <-.
    destruct (utf8_of_nonneg (u16_supp u v)) as (b & q & -> & P); [rewrite supp_arith; lia|]. exact P.
Qed.
Lemma section_events_cons : forall name t l, section_events ((name, t) :: l) =
  let! a := string_write name in let! b := transducer_write 0 t in let! s := statistics name t in
  let! c := section_events l in Ok ((ToFile, a) :: (ToFile, b) :: (ToCout, s) :: c).
Proof. reflexivity. Qed.

(** With two sections or more, the line of the first is taken for the name of the second.  So
    whatever the transducers are, if only the first name begins with a Latin letter and no name
    has 256 characters or more, a reader that does not fail finds a section nobody wrote. *)
Theorem C88_several_refuted : forall ops s u n t x l e, let a := after ops in let all := (u :: n, t) :: x :: l in
  alphabet_fits a -> name_ok s -> Z.of_nat (length all) < 2 ^ 30 ->
  (forall name t, In (name, t) all -> name_ok name /\ file_ok 0 t /\ (length name < 256)%nat) ->
  65 <= u <= 122 -> is_text n ->
  set_events s a all = Ok e ->
  forall letters a' l' r, readTransducerSet (in_stdout e) = Ok (letters, a', l', r) ->
  exists name, In name (map fst l') /\ ~ In name (map fst all).
Proof.
  intros ops s u n t x l e a all A Hs Hl H Hu T E letters a' l' r R.
  destruct (shared_rt s a Hs (proj1 (after_inv ops)) (fits_ok a A)) as (p & q & Ep & Eq & Rs).
  destruct (mb_rt (Z.of_nat (length all))) as (c & Ec & _ & Rc); [lia|].
  destruct (H (u :: n) t (or_introl eq_refl)) as ([U L] & F & _).
  destruct (string_roundtrip (u :: n) U L) as (f & Ef & _ & Rf).
  destruct (transducer_rt 0 t F) as (g & Eg & _ & Rg).
  unfold set_events in E. unfold section_, ustr in *. rewrite Ep, Eq in E. cbn [obind] in E. rewrite Ec in E. cbn [obind] in E.
  unfold all in E at 1. rewrite section_events_cons in E. rewrite Ef in E. cbn [obind] in E. rewrite Eg in E. cbn [obind] in E.
  unfold statistics in E. cbn [utf16to8] in E. rewrite is_lead_iff, is_trail_iff in E by (unfold is_unit; lia).
  replace ((55296 <=? u) && (u <? 56320)) with false in E by lia. replace ((56320 <=? u) && (u <? 57344)) with false in E by lia.
  destruct (text_utf8 n T) as [nm En]. rewrite En in E. cbn [obind] in E.
  unfold utf8_of in E. replace (u <? 128) with true in E by lia. cbn [app] in E.
  destruct (section_events (x :: l)) as [d| | | |]; cbn [obind] in E; try discriminate E.
  apply (f_equal (fun o => match o with Ok v => v | _ => [] end)) in E. cbv beta iota in E. subst e.
  unfold in_stdout in R. cbn [map snd concat] in R. set (tail := concat (map snd d)) in R.
  unfold readTransducerSet in R.
  rewrite (app_assoc HEADER_LTTOOLBOX) in R. rewrite Rs in R. cbn [obind] in R. rewrite Rc in R.
  rewrite Nat2Z.id in R. unfold all in R at 1. cbn [length read_sections] in R. rewrite Rf in R. rewrite Rg in R. cbn [obind section_set] in R.
  match type of R with context [string_read ?i] => destruct (string_read i) as [nm2 i2] eqn:E2 end.
  assert (Long : (256 <= length nm2)%nat).
  { change nm2 with (fst (nm2, i2)). rewrite <- E2. cbn [app]. apply long_name; [lia|].
    rewrite <- app_assoc. cbn [app]. eapply utf8_head; eassumption. }
  destruct (transducer_read 0 i2) as [[t2 i3]| | | |]; try discriminate R. cbn [obind] in R.
  destruct (read_sections _ _ i3 _) as [[l2 r2]| | | |] eqn:E3; try discriminate R. cbn [obind] in R. injection R as _ _ <- _.
  exists nm2. split.
  - apply (sections_keep _ _ _ _ _ _ _ _ E3). destruct (ustr_eq_dec nm2 (u :: n)) as [->|]; cbn; auto.
  - intro I. apply in_map_iff in I as ([m v] & <- & I). apply H in I as (_ & _ & K). cbn [fst] in Long. lia.
Qed.

(** What a file of its own holds, and a standard output, for a dictionary with the sections "ma"
    and "x"; "ma 3 3" is printed between them. *)
Definition c88_sections : list section_ := [([109; 97], c12_t); ([120], mkF 0 [] [[]])].
Definition c88_events : events := match set_events [99] (after c12_ops) c88_sections with Ok e => e | _ => [] end.
Example C88_example_lines :
  map snd (filter (fun x => match fst x with ToCout => true | _ => false end) c88_events)
    = [[109; 97; 32; 51; 32; 51; 10]; [120; 32; 49; 32; 48; 10]].
Proof. vm_compute. reflexivity. Qed.
Example C88_example_file : readTransducerSet (in_file c88_events) = Ok ([99], after c12_ops, c88_sections, []).
Proof. vm_compute. reflexivity. Qed.
(** From the standard output a dictionary with the sections "!" and "x" is read without complaint:
    the second section has a name of 33 units that begins with what was printed, and the one
    called "x" is gone. *)
Definition c88_short : events :=
  match set_events [99] (after []) [([33], mkF 0 [] [[]]); ([120], mkF 0 [] [[]])] with Ok e => e | _ => [] end.
Example C88_example_stdout :
  match readTransducerSet (in_stdout c88_short) with
  | Ok (_, _, l, _) => map (fun x => firstn 6 (fst x)) l = [[33]; [32; 49; 32; 48; 10; 1]] /\ map (fun x => length (fst x)) l = [1; 33]%nat
  | _ => False
  end.
Proof. vm_compute. auto. Qed.
(** U+00F1 and U+1F600 in a name are printed in UTF-8; half a pair is not printed. *)
Example C88_example_names : utf16to8 [0xF1; 0xD83D; 0xDE00] = Ok [195; 177; 240; 159; 152; 128] /\ utf16to8 [97; 0xD83D] = Throw.
Proof. vm_compute. auto. Qed.

(** * The lines *)
(** a name as printed: its characters in UTF-8 ([utf8], InputProps.v) *)
Inductive printed : list Z -> list Z -> Prop :=
| pr_none : printed [] []
| pr_unit u r bs : ~ (55296 <= u < 57344) -> printed r bs -> printed (u :: r) (utf8 u ++ bs)
| pr_pair u v r bs : 55296 <= u < 56320 -> 56320 <= v < 57344 -> printed r bs ->
    printed (u :: v :: r) (utf8 (65536 + (u - 55296) * 1024 + (v - 56320)) ++ bs).
Lemma text_printed : forall s, is_text s -> exists bs, utf16to8 s = Ok bs /\ printed s bs.
Proof.
  intros s T. induction T as [|u r R N T [bs [IH P]]|u v r R1 R2 T [bs [IH P]]]; cbn [utf16to8].
  - exists []. split; [reflexivity|apply pr_none].
  - rewrite is_lead_iff, is_trail_iff by (unfold is_unit; lia).
    replace ((55296 <=? u) && (u <? 56320)) with false by lia. replace ((56320 <=? u) && (u <? 57344)) with false by lia.
    rewrite IH. cbn [obind]. eexists. split; [reflexivity|]. now apply (pr_unit u r bs).
  - rewrite is_lead_iff, is_trail_iff by (unfold is_unit; lia).
    replace ((55296 <=? u) && (u <? 56320)) with true by lia. replace ((56320 <=? v) && (v <? 57344)) with true by lia.
    rewrite IH. cbn [obind]. eexists. split; [reflexivity|]. rewrite supp_arith. now apply (pr_pair u v r bs).
Qed.
Lemma has_decimal : forall k n, 0 <= n < Z.of_nat k -> exists s, decimal_of n s.
Proof.
  induction k as [|k IH]; intros n H; [lia|]. destruct (Z_lt_ge_dec n 10) as [L|L].
  - eexists. apply de_one. lia.
  - destruct (IH (n / 10)) as [s S]; [split; [apply Z.div_pos; lia|apply Z.div_lt_upper_bound; lia]|].
    eexists. apply de_more; [lia|exact S].
Qed.
Lemma decimal_right : forall n, 0 <= n -> decimal_of n (FinalsModel.decimal n).
Proof.
  intros n H. destruct (has_decimal (S (Z.to_nat n)) n) as [s S]; [lia|]. now rewrite (decimal_of_decimal _ _ S).
Qed.

(** For every section, in order, one line is printed once the section is written: its name, the
    number of its states, the number of its arcs. *)
Definition line_of (x : section_) (line : list Z) : Prop :=
  exists nm states arcs, line = nm ++ [32] ++ states ++ [32] ++ arcs ++ [10] /\ printed (fst x) nm
  /\ decimal_of (Z.of_nat (length (f_trans (snd x)))) states
  /\ decimal_of (Z.of_nat (length (concat (f_trans (snd x))))) arcs.
Lemma length_concat : forall T (l : list (list T)), length (concat l) = list_sum (map (@length T) l).
Proof. intros T l. induction l as [|x l IH]; [reflexivity|]. cbn [concat map]. rewrite app_length, IH. reflexivity. Qed.
Lemma section_lines : forall l e, (forall name t, In (name, t) l -> is_text name) -> section_events l = Ok e ->
  Forall2 line_of l (map snd (filter (fun x => match fst x with ToFile => false | ToCout => true end) e)).
Proof.
  induction l as [|[name t] l IH]; intros e T E.
  - injection E as <-. constructor.
  - rewrite section_events_cons in E. destruct (string_write name) as [a| | | |]; try discriminate E.
    destruct (transducer_write 0 t) as [b| | | |]; try discriminate E. cbn [obind] in E. unfold statistics in E.
    destruct (text_printed name (T name t (or_introl eq_refl))) as (nm & En & P). rewrite En in E. cbn [obind] in E.
    destruct (section_events l) as [c| | | |]; try discriminate E. cbn [obind] in E. injection E as <-.
    cbn [filter map fst snd]. constructor; [|apply IH; [intros n u J; apply (T n u (or_intror J))|reflexivity]].
    exists nm, (FinalsModel.decimal (Z.of_nat (length (f_trans t)))),
      (FinalsModel.decimal (Z.of_nat (list_sum (map (@length farc) (f_trans t))))).
    split; [reflexivity|]. split; [exact P|]. split; [apply decimal_right; lia|].
    cbn [snd]. rewrite length_concat. apply decimal_right. lia.
Qed.
Theorem C88_lines : forall letters a l e, (forall name t, In (name, t) l -> is_text name) ->
  set_events letters a l = Ok e ->
  Forall2 line_of l (map snd (filter (fun x => match fst x with ToFile => false | ToCout => true end) e)).
Proof.
  intros letters a l e T E. unfold set_events in E.
  destruct (string_write letters) as [x| | | |]; try discriminate E. destruct (alphabet_write a) as [y| | | |]; try discriminate E.
  cbn [obind] in E. destruct (multibyte_write _) as [z| | | |]; try discriminate E. cbn [obind] in E.
  destruct (section_events l) as [c| | | |] eqn:Ec; try discriminate E. cbn [obind] in E. injection E as <-.
  cbn [filter map fst snd]. now apply section_lines.
Qed.

Print Assumptions C88_lines.
Print Assumptions C88_file.
Print Assumptions C88_one_section.
Print Assumptions C88_several_refuted.
