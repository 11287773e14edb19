(** Lemmas for C76: the sides of a unit, the words that are added, the documents. *)
From Coq Require String Ascii.
From Verif Require Import Base AlphabetModel AlphabetProofs AlphabetProps TransducerModel TransducerSpec TransducerProofs MinimizeProofs AutomataProps CompilerSpec TrieProofs CompilerProofs DixModel DixSpec DixProofs FinalsModel TmxModel TmxSpec.
Import String.StringSyntax.

Section Sides.
Context (isspace : Z -> bool).
Notation blank := (fun c => isspace c = true).

(** * Blanks *)
Lemma drop_all : forall a v, Forall blank a -> drop_blanks isspace (a ++ v) = drop_blanks isspace v.
Proof. intros a v H. induction H as [|c a Hc H IH]; [reflexivity|]. cbn [app drop_blanks]. now rewrite Hc. Qed.
Lemma drop_none : forall v, (forall c r, v = c :: r -> ~ blank c) -> drop_blanks isspace v = v.
Proof. intros [|c r] H; [reflexivity|]. cbn [drop_blanks]. specialize (H c r eq_refl). cbn beta in H. now destruct (isspace c). Qed.
Lemma rev_snoc : forall (v : list Z) c r, rev v = c :: r -> v = rev r ++ [c].
Proof. intros v c r H. rewrite <- (rev_involutive v), H. reflexivity. Qed.
Lemma trim_ok : forall v w, trimmed blank v w -> trim_blanks isspace v = w.
Proof.
  intros v w (a & b & -> & Ha & Hb & F & L). unfold trim_blanks. rewrite !rev_app_distr, <- app_assoc.
  rewrite drop_all by (now apply Forall_rev).
  destruct w as [|x w].
  - cbn [rev app]. assert (E : drop_blanks isspace (rev a) = []).
    { rewrite <- (app_nil_r (rev a)), drop_all by (now apply Forall_rev). reflexivity. }
    rewrite E. reflexivity.
  - rewrite (drop_none (rev (x :: w) ++ rev a)).
    + rewrite rev_app_distr, !rev_involutive, drop_all by exact Ha. now apply drop_none.
    + intros c r E. destruct (rev (x :: w)) as [|y l] eqn:Er; [apply (f_equal (@length Z)) in Er; rewrite rev_length in Er; discriminate Er|].
      cbn [app] in E. injection E as -> _. apply (L c (rev l)). now apply rev_snoc.
Qed.

End Sides.

(** * Numbers *)
Section Numbers.
Context (isdigit : Z -> bool).
Notation digit := (fun c => isdigit c = true).
Lemma run_all : forall n v, Forall (numeric digit) n -> number_run isdigit false (n ++ v) = (length n + number_run isdigit false v)%nat.
Proof.
  intros n v H. induction H as [|c n Hc H IH]; [reflexivity|]. cbn [app number_run length plus]. rewrite <- IH.
  replace (in_number isdigit false c) with true; [reflexivity|]. symmetry. unfold in_number. cbn [negb andb].
  destruct Hc as [->|[-> | ->]]; [reflexivity|..]; now rewrite orb_true_r.
Qed.
Lemma run_numeric : forall v first, Forall (numeric digit) (firstn (number_run isdigit first v) v).
Proof.
  induction v as [|c v IH]; intros first; [constructor|]. cbn [number_run]. destruct (in_number isdigit first c) eqn:E; [|constructor].
  cbn [firstn]. constructor; [|apply IH]. unfold in_number in E. apply orb_true_iff in E as [E|E]; [now left|].
  apply andb_true_iff in E as [_ E]. apply orb_true_iff in E as [E|E]; apply Z.eqb_eq in E; right; auto.
Qed.
Lemma last_digit_le : forall n v, (last_digit isdigit n v <= n)%nat.
Proof. induction n as [|n IH]; intros v; cbn [last_digit]; [lia|]. destruct (isdigit _); [lia|]. specialize (IH v). lia. Qed.
Lemma last_digit_at : forall n v k, isdigit (nth k v 0) = true -> (k < n)%nat -> (forall j, (k < j < n)%nat -> isdigit (nth j v 0) = false) ->
  last_digit isdigit n v = S k.
Proof.
  induction n as [|n IH]; intros v k Hk L H; [lia|]. cbn [last_digit]. destruct (Nat.eq_dec k n) as [->|N]; [now rewrite Hk|].
  rewrite H by lia. apply IH; [exact Hk|lia|intros j Hj; apply H; lia].
Qed.
Lemma firstn_more : forall k m (v : list Z) c, (k <= m)%nat -> In c (firstn k v) -> In c (firstn m v).
Proof.
  induction k as [|k IH]; intros m [|x v] c L H; cbn [firstn In] in H; try tauto. destruct m as [|m]; [lia|]. cbn [firstn In].
  destruct H as [->|H]; [now left|right]. apply (IH m v c); [lia|exact H].
Qed.
Lemma number_length : forall n v, number digit n -> (forall x d y, v = x ++ d :: y -> Forall (numeric digit) x -> ~ digit d) ->
  numberLength isdigit (n ++ v) = length n.
Proof.
  intros n v (Fn & (d & r & En & Hd) & (e & r' & En' & He)) M. unfold numberLength.
  assert (R : number_run isdigit true (n ++ v) = (length n + number_run isdigit false v)%nat).
  { subst n. cbn [app number_run length]. unfold in_number at 1. cbn beta in Hd. rewrite Hd. cbn [orb]. rewrite run_all by (now apply Forall_inv_tail in Fn). reflexivity. }
  rewrite R. assert (Ln : length n = S (length r')) by (rewrite En', app_length; cbn; lia). rewrite Ln.
  apply last_digit_at; [|lia|].
  - rewrite En', <- app_assoc, app_nth2, Nat.sub_diag by lia. exact He.
  - intros j [J1 J2]. rewrite app_nth2 by lia. destruct (isdigit (nth (j - length n) v 0)) eqn:E; [exfalso|reflexivity].
    set (k := (j - length n)%nat) in *. assert (Lk : (k < number_run isdigit false v)%nat) by lia.
    assert (Lv : (number_run isdigit false v <= length v)%nat).
    { clear. generalize false. induction v as [|c v IH]; intros b; cbn [number_run length]; [lia|]. destruct (in_number isdigit b c); [|lia]. specialize (IH false). lia. }
    apply (M (firstn k v) (nth k v 0) (skipn (S k) v)); [| |exact E].
    + rewrite <- (firstn_skipn k v) at 1. f_equal. clear -Lk Lv. assert (L : (k < length v)%nat) by lia. clear Lk Lv. revert v L.
      induction k as [|k IH]; intros [|c v] L; cbn [length] in L; try lia; [reflexivity|]. cbn [skipn nth]. rewrite IH by lia. reflexivity.
    + assert (F := run_numeric v false). apply Forall_forall. intros c Hc. rewrite Forall_forall in F. apply F.
      apply (firstn_more k); [lia|exact Hc].
Qed.
Lemma char_length : forall c v, ~ digit c -> numberLength isdigit (c :: v) = O.
Proof. intros c v H. unfold numberLength. cbn [number_run]. unfold in_number. cbn [negb andb orb]. cbn beta in H. destruct (isdigit c); [congruence|reflexivity]. Qed.
Lemma number_some : forall n, number digit n -> exists k, length n = S k.
Proof. intros n (_ & (d & r & -> & _) & _). cbn. eauto. Qed.

Lemma origin_skip : forall n v, originPass isdigit (length n) (n ++ v) = originPass isdigit O v.
Proof. induction n as [|c n IH]; intros v; [reflexivity|]. cbn [length app originPass]. apply IH. Qed.
Lemma origin_pass : forall v ts, cut digit v ts -> originPass isdigit O v = (source ts, numbers ts).
Proof.
  intros v ts H. induction H as [|c v ts Hc H IH|n v ts Hn M H IH]; [reflexivity| |].
  - cbn [originPass]. rewrite (char_length c v Hc), IH. reflexivity.
  - pose proof (number_length n v Hn M) as L. destruct n as [|c n]; [destruct Hn as (_ & (d & r & E & _) & _); discriminate E|].
    cbn [app originPass]. change (c :: n ++ v) with ((c :: n) ++ v). rewrite L. cbn [length]. rewrite origin_skip, IH.
    change (S (length n)) with (length (c :: n)). rewrite firstn_app, Nat.sub_diag, firstn_all, firstn_O, app_nil_r. reflexivity.
Qed.

Lemma meta_skip : forall ns n v i, metaPass isdigit ns i (length n) (n ++ v) = metaPass isdigit ns (i + length n)%nat O v.
Proof.
  intros ns. induction n as [|c n IH]; intros v i; [now rewrite Nat.add_0_r|]. cbn [length app metaPass]. rewrite IH. f_equal. lia.
Qed.
Lemma index_first : forall n ns k, first_at k n ns -> number_index n ns = Some k.
Proof.
  intros n. induction ns as [|x ns IH]; intros k [H1 H2]; [destruct k; discriminate H1|]. cbn [number_index]. destruct (ustr_eq_dec n x) as [->|N].
  - destruct k as [|k]; [reflexivity|]. exfalso. apply (H2 O); [lia|reflexivity].
  - destruct k as [|k]; [injection H1 as ->; congruence|]. rewrite (IH k); [reflexivity|]. split; [exact H1|]. intros j Hj. apply (H2 (S j)). lia.
Qed.
Lemma index_none : forall n ns, ~ In n ns -> number_index n ns = None.
Proof.
  intros n. induction ns as [|x ns IH]; intros H; [reflexivity|]. cbn [number_index]. destruct (ustr_eq_dec n x) as [->|N]; [exfalso; apply H; now left|].
  rewrite IH; [reflexivity|]. intros K. apply H. now right.
Qed.
Lemma index_some : forall n ns, In n ns -> exists k, number_index n ns = Some k /\ (k < length ns)%nat.
Proof.
  intros n. induction ns as [|x ns IH]; intros H; [destruct H|]. cbn [number_index length]. destruct (ustr_eq_dec n x) as [->|N]; [exists O; split; [reflexivity|lia]|].
  destruct H as [->|H]; [congruence|]. destruct (IH H) as (k & -> & L). exists (S k). split; [reflexivity|lia].
Qed.
End Numbers.

(** * Decimal numbers *)
Lemma digits_of : forall n s, decimal_of n s -> forall fuel, (Z.to_nat (Z.log2 n) < fuel)%nat -> digits fuel n = s.
Proof.
  intros n s H. induction H as [n Hn|n s Hn H IH]; intros fuel Hf; (destruct fuel as [|fuel]; [lia|]); cbn [digits].
  - destruct (Z.ltb_spec n 10) as [_|K]; [reflexivity|lia].
  - destruct (Z.ltb_spec n 10) as [K|_]; [lia|]. f_equal. apply IH.
    assert (L : Z.log2 (n / 10) < Z.log2 n).
    { assert (E := Z.log2_spec n ltac:(lia)). apply Z.log2_lt_pow2; [apply Z.div_str_pos; lia|]. apply Z.div_lt_upper_bound; [lia|].
      destruct E as [_ E]. rewrite Z.pow_succ_r in E by apply Z.log2_nonneg. assert (0 < 2 ^ Z.log2 n) by (apply Z.pow_pos_nonneg; [lia|apply Z.log2_nonneg]). lia. }
    assert (0 <= Z.log2 (n / 10)) by apply Z.log2_nonneg. lia.
Qed.
Lemma decimal_of_decimal : forall n s, decimal_of n s -> decimal n = s.
Proof. intros n s H. unfold decimal. apply (digits_of n s H). lia. Qed.
Lemma decimal_length : forall n s, decimal_of n s -> forall k, n < 10 ^ Z.of_nat (S k) -> (length s <= S k)%nat.
Proof.
  intros n s H. induction H as [n Hn|n s Hn H IH]; intros k Hk; [cbn; lia|]. rewrite app_length. cbn [length].
  destruct k as [|k]; [change (10 ^ Z.of_nat 1) with 10 in Hk; lia|].
  assert (length s <= S k)%nat; [|lia]. apply IH. apply Z.div_lt_upper_bound; [lia|].
  replace (10 * 10 ^ Z.of_nat (S k)) with (10 ^ Z.of_nat (S (S k))); [exact Hk|]. rewrite (Nat2Z.inj_succ (S k)), Z.pow_succ_r by lia. reflexivity.
Qed.
Lemma reference_ok : forall k d, decimal_of (Z.of_nat k + 1) d -> Z.of_nat k + 1 < 10 ^ 8 -> reference k = Ok (txt "@(" ++ d ++ txt ")").
Proof.
  intros k d H L. unfold reference. rewrite (decimal_of_decimal _ _ H).
  assert (length d <= 8)%nat by (apply (decimal_length _ _ H); exact L). destruct (Nat.ltb_spec 8 (length d)) as [K|_]; [lia|reflexivity].
Qed.
Lemma decimal_exists : forall n, 0 <= n -> exists s, decimal_of n s.
Proof.
  intros n Hn. assert (K : forall m n, 0 <= n < m -> exists s, decimal_of n s).
  { intros m. destruct (Z.le_gt_cases 0 m) as [Hm|Hm]; [|intros; lia]. revert Hm. apply (natlike_ind (fun m => forall n, 0 <= n < m -> exists s, decimal_of n s)).
    - intros; lia.
    - intros x Hx IH y Hy. destruct (Z.lt_ge_cases y 10) as [L|L]; [eexists; apply de_one; lia|].
      destruct (IH (y / 10)) as [s Hs]; [split; [apply Z.div_pos; lia|]; apply Z.div_lt_upper_bound; lia|]. eexists. now apply de_more; [|exact Hs]. }
  apply (K (n + 1)). lia.
Qed.

Section Alignment.
Context (isdigit : Z -> bool).
Notation digit := (fun c => isdigit c = true).

Lemma firstn_exact : forall (n v : list Z), firstn (length n) (n ++ v) = n.
Proof. intros n v. now rewrite firstn_app, Nat.sub_diag, firstn_all, firstn_O, app_nil_r. Qed.
Lemma meta_number : forall ns i n v, number digit n -> (forall x d y, v = x ++ d :: y -> Forall (numeric digit) x -> ~ digit d) ->
  metaPass isdigit ns i O (n ++ v) =
    match number_index n ns with
    | Some j => let! x := reference j in let! m := metaPass isdigit ns (i + length n) O v in Ok (option_map (app x) m)
    | None => if (length n <=? i)%nat then Ok None
              else let! m := metaPass isdigit ns (S i) (length n - i - 1) (tl n ++ v) in Ok (option_map (app (firstn (length n - i) (n ++ v))) m)
    end.
Proof.
  intros ns i n v Hn M. pose proof (number_length isdigit n v Hn M) as L. destruct n as [|c n]; [destruct Hn as (_ & (d & r & E & _) & _); discriminate E|].
  cbn [app metaPass tl]. change (c :: n ++ v) with ((c :: n) ++ v). rewrite L. cbn [length].
  change (S (length n)) with (length (c :: n)). rewrite firstn_exact. destruct (number_index (c :: n) ns) as [j|]; [|reflexivity].
  rewrite meta_skip. cbn [length]. replace (S i + length n)%nat with (i + S (length n))%nat by lia. reflexivity.
Qed.
Lemma meta_matched : forall ns ts t v, Z.of_nat (length ns) < 10 ^ 8 -> target ns ts t -> cut digit v ts -> forall i, metaPass isdigit ns i O v = Ok (Some t).
Proof.
  intros ns ts t v L H. revert v. induction H as [|c ts t H IH|n k d ts t Fk Dk H IH]; intros v C i; inversion C as [|c' v' ts' Hc C'|n' v' ts' Hn M C']; subst.
  - reflexivity.
  - cbn [metaPass]. rewrite (char_length isdigit c v' Hc), (IH v' C'). reflexivity.
  - rewrite (meta_number ns i n v' Hn M), (index_first n ns k Fk). assert (Lk : (k < length ns)%nat) by (apply nth_error_Some; rewrite (proj1 Fk); discriminate).
    rewrite (reference_ok k d Dk) by lia. cbn [obind]. rewrite (IH v' C'). cbn [obind option_map]. now rewrite <- !app_assoc.
Qed.
Lemma meta_none : forall v i skip, metaPass isdigit [] i skip v = Ok None \/ metaPass isdigit [] i skip v = Ok (Some (skipn skip v)).
Proof.
  induction v as [|c v IH]; intros i skip; [right; destruct skip; reflexivity|]. cbn [metaPass]. destruct skip as [|skip]; [|exact (IH (S i) skip)].
  destruct (numberLength isdigit (c :: v)) as [|k].
  - destruct (IH (S i) O) as [->| ->]; [now left|right; reflexivity].
  - cbn [number_index]. destruct (Nat.leb_spec (S k) i) as [L|L]; [now left|].
    destruct (IH (S i) (S k - i - 1)%nat) as [->| ->]; [now left|right]. cbn [obind option_map]. do 2 f_equal.
    replace (S k - i)%nat with (S (S k - i - 1)) at 1 by lia. cbn [firstn app]. now rewrite firstn_skipn.
Qed.
Lemma meta_kept : forall ns ts n ts' v, Z.of_nat (length ns) < 10 ^ 8 -> cut digit v (ts ++ Num n :: ts') -> Forall (fun m => In m ns) (numbers ts) -> ~ In n ns ->
  forall i, (length n <= i + length (flat_map text_of ts))%nat -> metaPass isdigit ns i O v = Ok None.
Proof.
  intros ns. induction ts as [|x ts IH]; intros n ts' v L C F Hn i Li; cbn [app] in C.
  - inversion C as [| |n' v' ts'' Hn' M C']; subst. rewrite (meta_number ns i n v' Hn' M), (index_none n ns Hn).
    destruct (Nat.leb_spec (length n) i) as [_|K]; [reflexivity|]. cbn [flat_map length] in Li. lia.
  - inversion C as [|c v' ts'' Hc C'|m v' ts'' Hm M C']; subst; cbn [numbers flat_map text_of app length] in *; rewrite ?app_length in Li.
    + cbn [metaPass]. rewrite (char_length isdigit c v' Hc), (IH n ts' v' L C' F Hn) by (cbn [length] in Li; lia). reflexivity.
    + rewrite (meta_number ns i m v' Hm M). destruct (index_some m ns (Forall_inv F)) as (k & -> & Lk).
      destruct (decimal_exists (Z.of_nat k + 1)) as [d Hd]; [lia|]. rewrite (reference_ok k d Hd) by lia. cbn [obind].
      rewrite (IH n ts' v' L C' (Forall_inv_tail F) Hn) by lia. reflexivity.
Qed.
Lemma cut_length : forall v ts, cut digit v ts -> (length (numbers ts) <= length v)%nat.
Proof.
  intros v ts H. induction H as [|c v ts Hc H IH|n v ts Hn M H IH]; cbn [numbers flat_map app length]; [lia|unfold numbers in IH; lia|].
  destruct (number_some isdigit n Hn) as [k Hk]. rewrite app_length. cbn [length]. unfold numbers in IH. lia.
Qed.
Lemma cut_source : forall v ts, cut digit v ts -> numbers ts = [] -> source ts = v.
Proof.
  intros v ts H. induction H as [|c v ts Hc H IH|n v ts Hn M H IH]; cbn [numbers flat_map app source map]; intros E; [reflexivity| |discriminate E].
  f_equal. now apply IH.
Qed.
Lemma align_ok : forall s t s' t', Z.of_nat (length s) < 10 ^ 8 -> numbered digit s t s' t' -> align_numbers isdigit s t = Ok (s', t').
Proof.
  intros s t s' t' L H. unfold align_numbers. destruct H as [s t ss ts t' Cs Ct T|s t ss Cs E|s t ss ts n ts' Cs Ct F Hn Ln]; rewrite (origin_pass isdigit s ss Cs);
    pose proof (cut_length s ss Cs) as Ll.
  - rewrite (meta_matched (numbers ss) ts t' t ltac:(lia) T Ct). reflexivity.
  - rewrite E. destruct (meta_none t O O) as [->| ->]; [reflexivity|]. cbn [obind skipn]. now rewrite (cut_source s ss Cs E).
  - rewrite (meta_kept (numbers ss) ts n ts' t ltac:(lia) Ct F Hn O) by lia. reflexivity.
Qed.

End Alignment.

(** * Parts *)
Lemma parts_one : forall p, ~ In mark_symbol p -> split_parts mark_symbol p = match p with [] => [] | _ => [p] end.
Proof.
  induction p as [|c p IH]; intros H; [reflexivity|]. cbn [split_parts]. destruct (Z.eqb_spec c mark_symbol) as [->|N]; [exfalso; apply H; now left|].
  rewrite IH by (intros K; apply H; now right). destruct p; reflexivity.
Qed.
Lemma parts_more : forall p v, ~ In mark_symbol p -> split_parts mark_symbol (p ++ mark_symbol :: v) = p :: split_parts mark_symbol v.
Proof.
  induction p as [|c p IH]; intros v H; [cbn [app split_parts]; now rewrite Z.eqb_refl|]. cbn [app split_parts].
  destruct (Z.eqb_spec c mark_symbol) as [->|N]; [exfalso; apply H; now left|]. rewrite IH by (intros K; apply H; now right). reflexivity.
Qed.
Lemma parts_ok : forall v ps, parts v ps -> split_parts mark_symbol v = ps.
Proof.
  intros v ps H. induction H as [|p Hp Hm|p v ps Hm H IH]; [reflexivity| |].
  - rewrite parts_one by exact Hm. destruct p; [congruence|reflexivity].
  - rewrite parts_more by exact Hm. now rewrite IH.
Qed.
Lemma join_ok : forall s ps, join_parts s ps = between [s] ps.
Proof. intros s. induction ps as [|p [|q ps] IH]; [reflexivity|reflexivity|]. cbn [join_parts between] in *. now rewrite IH. Qed.
Lemma join_marked : forall ps, join_parts 41 (mark_parts ps) = between (txt "(#)") ps.
Proof.
  induction ps as [|p [|q ps] IH]; [reflexivity|reflexivity|].
  change (between (txt "(#)") (p :: q :: ps)) with (p ++ txt "(#)" ++ between (txt "(#)") (q :: ps)). rewrite <- IH.
  change (mark_parts (p :: q :: ps)) with ((p ++ [40; 35]) :: mark_parts (q :: ps)).
  assert (E : exists x r, mark_parts (q :: ps) = x :: r) by (destruct ps; cbn [mark_parts]; eauto). destruct E as (x & r & ->).
  cbn [join_parts]. rewrite <- app_assoc. reflexivity.
Qed.
Section Units.
Context (isspace isdigit : Z -> bool).
Notation blank := (fun c => isspace c = true).
Notation digit := (fun c => isdigit c = true).
Lemma trim_all : forall ps qs, Forall2 (trimmed blank) ps qs -> map (trim_blanks isspace) ps = qs.
Proof. intros ps qs H. induction H as [|p q ps qs Hp H IH]; [reflexivity|]. cbn [map]. now rewrite (trim_ok isspace p q Hp), IH. Qed.
Lemma sides_ok : forall s t S T, Z.of_nat (length s) < 10 ^ 8 -> unit_is blank digit s t S T -> unit_sides isspace isdigit (s, t) = Ok (S, T).
Proof.
  intros s t S T L (s0 & t0 & s1 & t1 & ps & qs & ps' & qs' & Ts & Tt & N & Ps & Pt & Fs & Ft & -> & ->).
  unfold unit_sides. cbn [fst snd]. rewrite (trim_ok isspace s s0 Ts), (trim_ok isspace t t0 Tt).
  assert (L0 : Z.of_nat (length s0) < 10 ^ 8) by (destruct Ts as (a & b & -> & _); rewrite !app_length in L; lia).
  rewrite (align_ok isdigit s0 t0 s1 t1 L0 N). cbn [obind]. unfold align_blanks. change blank_tag with mark_symbol.
  now rewrite (parts_ok s1 ps Ps), (parts_ok t1 qs Pt), (trim_all ps ps' Fs), (trim_all qs qs' Ft), join_ok, join_marked.
Qed.
End Units.

(** * The words *)
Record memo (a : alphabet) (T : transducer) (A : nat -> Prop) (W : pset) : Prop := {
  mm_alph : alph_inv0 a; mm_trie : trie T A; mm_cov : cov a W; mm_lang : forall u, lang T 0 u <-> Tg a W u;
  mm_live : forall q, is_final T q -> exists u, reach T (initial T) u q }.
(** The state [e] is where [w] leads. *)
Record spot (a : alphabet) (T : transducer) (A : nat -> Prop) (e : nat) (w : list (Z * Z)) : Prop := {
  sp_at : A e; sp_cov : cov a (fun x => x = w); sp_reach : forall u, reach T (initial T) u e <-> reads a u w }.
Lemma reads_cov : forall a b w u, alph_inv b -> extends a b -> cov a (fun x => x = w) -> (reads b u w <-> reads a u w).
Proof.
  intros a b w u Hb E C. pose proof (Tg_extends a b (fun x => x = w) u Hb E C) as K. unfold Tg in K. split; intros R.
  - apply (proj1 K) in R || (destruct (proj1 K) as (x & -> & Rx); [now exists w|exact Rx]).
  - exact (reads_extends a b u w E R).
Qed.
Lemma reads_snoc : forall a u w tag p, alph_inv0 a -> decode tag a = Ok p -> tag <> 0 -> (reads a u (w ++ [p]) <-> exists v, reads a v w /\ u = v ++ sym tag).
Proof.
  intros a u w tag p Ha Hd Hn. rewrite (sym_nonzero tag Hn). split.
  - intros R. apply Forall2_app_inv_r in R as (v & x & R1 & R2 & ->). inversion R2 as [|t q x' w' Hq R']; subst. inversion R'; subst.
    exists v. split; [exact R1|]. f_equal. f_equal. exact (decode_unique a _ _ p (proj1 Ha) Hq Hd).
  - intros (v & R & ->). apply reads_app; [exact R|]. constructor; [exact Hd|constructor].
Qed.
Lemma insert_memo : forall ps a T A W e w, memo a T A W -> spot a T A e w -> Forall (fun p => p <> (0, 0)) ps ->
  exists e' a' T' A', insert_pairs ps e a T = Ok (e', a', T') /\ memo a' T' A' W /\ spot a' T' A' e' (w ++ ps) /\ extends a a'.
Proof.
  induction ps as [|p ps IH]; intros a T A W e w [Ma Mt Mc Ml Mv] [Sa Sc Sr] F.
  - exists e, a, T, A. rewrite app_nil_r. split; [reflexivity|]. split; [now constructor|]. split; [now constructor|apply extends_refl].
  - apply Forall_cons_iff in F as [Np F]. cbn [insert_pairs]. pose proof (pair_code_ok p a Ma) as P. destruct (pair_code p a) as [tag a1] eqn:Ep.
    destruct P as (Ha1 & Ex & Hd & Hi). assert (Nt := decode_nonzero a1 tag p Ha1 Hd Np). pose proof (proj1 Ha1) as Ia1.
    assert (Mc1 := cov_extends _ _ _ Ex Mc). assert (Ml1 : forall u, lang T 0 u <-> Tg a1 W u) by (intros u; rewrite Ml; symmetry; now apply Tg_extends).
    assert (Sr1 : forall u, reach T (initial T) u e <-> reads a1 u w) by (intros u; rewrite Sr; symmetry; now apply reads_cov).
    assert (Sc1 : cov a1 (fun x => x = w ++ [p])).
    { intros x q -> Hq. apply in_app_or in Hq as [Hq|[<-|[]]]; [exact (cov_extends _ _ _ Ex Sc w q eq_refl Hq)|auto]. }
    assert (Le := tr_lt _ _ Mt e Sa). unfold insertSingleTransduction. replace (e <? nstates T)%nat with true by (symmetry; apply Nat.ltb_lt; exact Le).
    assert (One := tr_one _ _ Mt e tag Sa Nt). rewrite (app_assoc w [p] ps : w ++ p :: ps = (w ++ [p]) ++ ps).
    destruct (equal_range tag (arcs_of T e)) as [|x [|y l]] eqn:E; [| |cbn in One; lia].
    + destruct (insertNew_enlarged T A e tag 0 Mt Sa (or_intror E)) as (_ & N' & En & Tr' & _ & R').
      change (snd (insertNewSingleTransduction tag e 0 T)) with (add_arc e (tag, (nstates T, 0)) (snd (newState T))) in *.
      change (newState T) with (nstates T, snd (newState T)). cbn [fst snd]. set (T1 := add_arc e (tag, (nstates T, 0)) (snd (newState T))) in *.
      destruct (IH a1 T1 (plus_state A (nstates T)) W (nstates T) (w ++ [p])) as (e' & a' & T' & A' & E' & M' & S' & X').
      * constructor; [exact Ha1|exact Tr'|exact Mc1| |]; [intros u; rewrite (enlarged_lang T A T1 u (tr_wf _ _ Mt) En); apply Ml1|].
        intros q Hq. apply (enlarged_final T A T1 q En) in Hq. destruct (Mv q Hq) as (u & Ru). exists u. rewrite (el_initial _ _ _ En).
        apply (enlarged_reach T A T1 _ u q En); [|exact Ru]. destruct Hq as (f & Hf). exact (wf_finals T (tr_wf _ _ Mt) _ _ Hf).
      * constructor; [now right|exact Sc1|]. intros u. rewrite R', (reads_snoc a1 u w tag p Ha1 Hd Nt). split; intros (v & Hv & ->); exists v; (split; [now apply Sr1|reflexivity]).
      * exact F.
      * exists e', a', T', A'. split; [exact E'|]. split; [exact M'|]. split; [exact S'|]. exact (extends_trans _ _ _ Ex X').
    + destruct (trie_follow T A e tag x Mt Sa Nt E) as (Ax & Rx).
      destruct (IH a1 T A W (a_dst x) (w ++ [p])) as (e' & a' & T' & A' & E' & M' & S' & X').
      * now constructor.
      * constructor; [exact Ax|exact Sc1|]. intros u. rewrite Rx, (reads_snoc a1 u w tag p Ha1 Hd Nt). split; intros (v & Hv & ->); exists v; (split; [now apply Sr1|reflexivity]).
      * exact F.
      * exists e', a', T', A'. split; [exact E'|]. split; [exact M'|]. split; [exact S'|]. exact (extends_trans _ _ _ Ex X').
Qed.

Lemma rounds_align : forall o m, rounds_of o m = align o m.
Proof. induction o as [|x o IH]; intros [|y m]; cbn [rounds_of align hd tl]; rewrite ?IH; reflexivity. Qed.
Lemma before_all : forall ps, Forall (fun p => p <> (0, 0)) ps -> before_end ps = ps.
Proof.
  intros ps H. induction H as [|[x y] ps Hp H IH]; [reflexivity|]. cbn [before_end]. rewrite IH.
  destruct (Z.eqb_spec x 0) as [->|]; [|reflexivity]. destruct (Z.eqb_spec y 0) as [->|]; [congruence|reflexivity].
Qed.
(** A unit adds its word, if both sides are long enough. *)
Definition long_enough (S T : list Z) : Prop := (5 <= length S)%nat /\ (5 <= length T)%nat.
Lemma insertTU_ok : forall S T a t A W, memo a t A W -> ~ In 0 S -> ~ In 0 T -> (forall r, S <> mark_symbol :: r) -> (forall r, T <> mark_symbol :: r) ->
  exists a' t' A', insertTU S T a t = Ok (a', t') /\ memo a' t' A' (fun w => W w \/ (long_enough S T /\ w = align S T)) /\ extends a a'.
Proof.
  intros S T a t A W M Zs Zt Ms Mt. unfold insertTU.
  destruct ((length S <? 5)%nat || (length T <? 5)%nat) eqn:E.
  - exists a, t, A. split; [reflexivity|]. split; [|apply extends_refl].
    assert (X : forall w, (W w \/ (long_enough S T /\ w = align S T)) <-> W w).
    { intros w. split; [|now left]. intros [H|((L1 & L2) & _)]; [exact H|]. apply orb_true_iff in E as [E|E]; apply Nat.ltb_lt in E; lia. }
    destruct M as [Ma Mtr Mc Ml Mv]. constructor; [exact Ma|exact Mtr| | |exact Mv].
    + apply (cov_iff a W); [intros w; symmetry; apply X|exact Mc].
    + intros u. rewrite Ml. symmetry. now apply Tg_iff.
  - apply orb_false_iff in E as [E1 E2]. apply Nat.ltb_ge in E1, E2. change blank_tag with mark_symbol.
    assert (H1 : hd 0 S =? mark_symbol = false) by (destruct S as [|x S]; [reflexivity|]; apply Z.eqb_neq; cbn [hd]; intros ->; now apply (Ms S)).
    assert (H2 : hd 0 T =? mark_symbol = false) by (destruct T as [|x T]; [reflexivity|]; apply Z.eqb_neq; cbn [hd]; intros ->; now apply (Mt T)).
    rewrite H1, H2. cbn [orb]. rewrite rounds_align.
    assert (F : Forall (fun p => p <> (0, 0)) (align S T)) by (apply Forall_forall; intros p Hp; exact (align_nonzero S T p Zs Zt Hp)).
    rewrite (before_all _ F).
    destruct (insert_memo (align S T) a t A W (initial t) [] M) as (e & a' & t' & A' & -> & [Ma Mtr Mc Ml Mv] & [Sa Sc Sr] & Ex).
    + constructor; [apply (tr_init _ _ (mm_trie _ _ _ _ M))|intros w p -> []|]. intros u. rewrite (trie_root t A u (mm_trie _ _ _ _ M)).
      split; [intros ->; constructor|intros R; now inversion R].
    + exact F.
    + cbn [obind]. exists a', (setFinal e 0 true t'), A'. split; [reflexivity|]. split; [|exact Ex]. cbn [app] in *.
      constructor; [exact Ma|apply setFinal_trie; [exact Mtr|exact (tr_lt _ _ Mtr e Sa)]| | |].
      * intros w p [Hw|[_ ->]]; [apply (Mc w p Hw)|apply (Sc _ p eq_refl)].
      * intros u. rewrite (setFinal_lang t' e 0 u (tr_wf _ _ Mtr)), Ml, Sr. split.
        -- intros [(w & Hw & R)|R]; [exists w; auto|exists (align S T); split; [right; split; [split; lia|reflexivity]|exact R]].
        -- intros (w & [Hw|[_ ->]] & R); [left; now exists w|now right].
      * intros q Hq. cbn [setFinal initial]. apply setFinal_final in Hq as [Hq| ->]; [| |exact (tr_wf _ _ Mtr)].
        -- destruct (Mv q Hq) as (u & Ru). exists u. now apply setFinal_reach.
        -- destruct (reads_of a' (align S T)) as (u & Ru); [intros p Hp; exact (proj2 (Sc _ p eq_refl Hp))|]. exists u. apply setFinal_reach. now apply Sr.
Qed.

(** * What a side does not contain *)
Lemma trimmed_in : forall blank v w c, trimmed blank v w -> In c w -> In c v.
Proof. intros blank v w c (a & b & -> & _) H. apply in_or_app. right. apply in_or_app. now left. Qed.
Lemma cut_in : forall digit v ts c, cut digit v ts -> In c (flat_map text_of ts) -> In c v.
Proof.
  intros digit v ts c H. induction H as [|x v ts Hx H IH|n v ts Hn M H IH]; cbn [flat_map text_of]; intros I; [exact I| |].
  - destruct I as [->|I]; [now left|right; auto].
  - apply in_or_app. apply in_app_or in I as [I|I]; auto.
Qed.
Lemma source_in : forall ts c, In c (source ts) -> c = number_symbol \/ In c (flat_map text_of ts).
Proof.
  intros ts c H. apply in_map_iff in H as ([n|x] & <- & I); [now left|right]. apply in_flat_map. exists (Char x). split; [exact I|now left].
Qed.
Lemma decimal_digits : forall n s c, decimal_of n s -> In c s -> 48 <= c <= 57.
Proof.
  intros n s c H. induction H as [n Hn|n s Hn H IH]; intros I; [destruct I as [<-|[]]; lia|]. apply in_app_or in I as [I|[<-|[]]]; [auto|].
  pose proof (Z.mod_pos_bound n 10). lia.
Qed.
Lemma target_in : forall ns ts t c, target ns ts t -> In c t -> 35 <= c <= 64 \/ In c (flat_map text_of ts).
Proof.
  intros ns ts t c H. induction H as [|x ts t H IH|n k d ts t Fk Dk H IH]; intros I; [destruct I| |].
  - destruct I as [->|I]; [right; now left|]. destruct (IH I) as [K|K]; [now left|right; now right].
  - apply in_app_or in I as [I|I]; [left; vm_compute in I; intuition lia|]. apply in_app_or in I as [I|I]; [left; apply (decimal_digits _ _ _ Dk) in I; lia|].
    apply in_app_or in I as [I|I]; [left; vm_compute in I; intuition lia|]. destruct (IH I) as [K|K]; [now left|right]. cbn [flat_map]. apply in_or_app. now right.
Qed.
Lemma numbered_in : forall digit s t s' t' c, numbered digit s t s' t' -> (In c s' -> c = number_symbol \/ In c s) /\ (In c t' -> 35 <= c <= 64 \/ In c t).
Proof.
  intros digit s t s' t' c H. destruct H as [s t ss ts t' Cs Ct T| |]; [|auto|auto]. split; intros I.
  - apply source_in in I as [I|I]; [now left|right]. exact (cut_in digit s ss c Cs I).
  - apply (target_in _ _ _ _ T) in I as [I|I]; [now left|right]. exact (cut_in digit t ts c Ct I).
Qed.
Lemma parts_in : forall v ps p c, parts v ps -> In p ps -> In c p -> In c v /\ c <> mark_symbol.
Proof.
  intros v ps p c H. induction H as [|q Hq Hm|q v ps Hm H IH]; intros Ip Ic; [destruct Ip| |].
  - destruct Ip as [->|[]]. split; [exact Ic|]. intros ->. contradiction.
  - destruct Ip as [->|Ip].
    + split; [apply in_or_app; now left|]. intros ->. contradiction.
    + destruct (IH Ip Ic) as [K1 K2]. split; [|exact K2]. apply in_or_app. right. now right.
Qed.
Lemma between_in : forall s ps c, In c (between s ps) -> In c s \/ exists p, In p ps /\ In c p.
Proof.
  intros s. induction ps as [|p [|q ps] IH]; intros c I; [destruct I|right; exists p; split; [now left|exact I]|].
  change (between s (p :: q :: ps)) with (p ++ s ++ between s (q :: ps)) in I. apply in_app_or in I as [I|I]; [right; exists p; split; [now left|exact I]|].
  apply in_app_or in I as [I|I]; [now left|]. destruct (IH c I) as [K|(x & Kx & K)]; [now left|right]. exists x. split; [now right|exact K].
Qed.
Lemma Forall2_in_r : forall {X Y} (R : X -> Y -> Prop) l m y, Forall2 R l m -> In y m -> exists x, In x l /\ R x y.
Proof.
  intros X Y R l m y H. induction H as [|a b l m Hab H IH]; intros I; [destruct I|]. destruct I as [<-|I]; [exists a; split; [now left|exact Hab]|].
  destruct (IH I) as (x & Ix & Hx). exists x. split; [now right|exact Hx].
Qed.
Lemma unit_in : forall blank digit s t S T c, unit_is blank digit s t S T ->
  (In c S -> c <> mark_symbol /\ (c = 32 \/ c = number_symbol \/ In c s)) /\ (In c T -> c <> mark_symbol /\ (35 <= c <= 64 \/ In c t)).
Proof.
  intros blank digit s t S T c (s0 & t0 & s1 & t1 & ps & qs & ps' & qs' & Ts & Tt & N & Ps & Pt & Fs & Ft & -> & ->).
  destruct (numbered_in digit s0 t0 s1 t1 c N) as [N1 N2]. split; intros I; apply between_in in I as [I|(p & Ip & Ic)].
  - vm_compute in I. split; [intros ->; vm_compute in I; intuition discriminate|left; intuition].
  - destruct (Forall2_in_r _ _ _ _ Fs Ip) as (q & Iq & Tq). destruct (parts_in s1 ps q c Ps Iq (trimmed_in _ _ _ _ Tq Ic)) as [K1 K2]. split; [exact K2|right].
    destruct (N1 K1) as [K|K]; [now left|right]. exact (trimmed_in _ _ _ _ Ts K).
  - vm_compute in I. split; [intros ->; vm_compute in I; intuition discriminate|left; intuition lia].
  - destruct (Forall2_in_r _ _ _ _ Ft Ip) as (q & Iq & Tq). destruct (parts_in t1 qs q c Pt Iq (trimmed_in _ _ _ _ Tq Ic)) as [K1 K2]. split; [exact K2|].
    destruct (N2 K1) as [K|K]; [now left|right]. exact (trimmed_in _ _ _ _ Tt K).
Qed.

(** * Documents *)
Section Documents.
Context (isspace isdigit : Z -> bool) (lo lm : ustr).
Notation blank := (fun c => isspace c = true).
Notation digit := (fun c => isdigit c = true).
Hypothesis Hl : lo <> lm.

Lemma named_is : forall x n, named x n = true <-> is x n.
Proof. intros x n. unfold named, is, ExpanderModel.ueq. destruct (ustr_eq_dec (x_name n) x); split; congruence. Qed.
Lemma named_not : forall x n, ~ is x n -> named x n = false.
Proof. intros x n H. destruct (named x n) eqn:E; [|reflexivity]. apply named_is in E. contradiction. Qed.
Lemma named_other : forall x y n, is x n -> x <> y -> named y n = false.
Proof. intros x y n H N. apply named_not. intros K. unfold is in *. congruence. Qed.
Definition side_for (l : ustr) : side := if ExpanderModel.ueq l lm then ToMeta else if ExpanderModel.ueq l lo then ToOrigin else ToNone.
Lemma language_side : forall n l, language n l -> side_of lo lm n = side_for l.
Proof.
  intros [e x v at_ em] l H. cbn [x_attrs language] in H. unfold side_of, side_for. unfold language in H. cbn [x_attrs] in H.
  destruct H as [[N G]|[G1 G2]].
  - rewrite (given_attrib at_ a_xmllang l) by exact G. destruct l; [congruence|reflexivity].
  - rewrite (given_attrib at_ a_xmllang []) by exact G1. rewrite (given_attrib at_ a_lang l) by exact G2. reflexivity.
Qed.
Lemma push_app : forall s x y om, push s y (push s x om) = push s (x ++ y) om.
Proof. intros [] x y [o m]; cbn [push fst snd]; now rewrite ?app_assoc. Qed.
Lemma push_nil : forall s om, push s [] om = om.
Proof. intros [] [o m]; cbn [push fst snd]; now rewrite ?app_nil_r. Qed.
Ltac other H y := rewrite (named_other _ y _ H) by (intros X; vm_compute in X; discriminate X).
Lemma read_content : forall ns v, content ns v -> forall s om m r, is (txt "tuv") m -> x_end m = true ->
  readTU lo lm (Some s) om (ns ++ m :: r) = readTU lo lm None (push s v om) r.
Proof.
  intros ns v H s om m r Hm Em. revert om. induction H as [|n ns v Hn H IH|n ns v Hn En H IH|n ns v N1 N2 N3 H IH]; intros om; cbn [app readTU].
  - rewrite push_nil. other Hm n_text. other Hm e_hi. other Hm e_ph. cbn [orb]. rewrite (proj2 (named_is e_tuv m) Hm), Em. reflexivity.
  - rewrite (proj2 (named_is n_text n) Hn). other Hn e_tuv. cbn [andb]. rewrite IH, push_app. reflexivity.
  - assert (K : named n_text n = false /\ named e_tuv n = false /\ named e_hi n || named e_ph n = true).
    { destruct Hn as [Hn|Hn]; (split; [now other Hn n_text|split; [now other Hn e_tuv|]]).
      - now rewrite (proj2 (named_is e_hi n) Hn).
      - rewrite (proj2 (named_is e_ph n) Hn). apply orb_true_r. }
    destruct K as (-> & -> & ->). rewrite En. cbn [andb]. rewrite IH, push_app. reflexivity.
  - rewrite (named_not n_text n N1).
    assert (K : (if named e_hi n || named e_ph n then if x_end n then om else push s [blank_tag] om else om) = om).
    { destruct (named e_hi n || named e_ph n) eqn:E; [|reflexivity]. rewrite N2; [reflexivity|]. apply orb_true_iff in E as [E|E]; apply named_is in E; auto. }
    rewrite K. assert (K2 : named e_tuv n && x_end n = false).
    { destruct (named e_tuv n) eqn:E; [|reflexivity]. apply named_is in E. now rewrite (N3 E). }
    rewrite K2, IH. reflexivity.
Qed.
Definition push_all (vs : list (ustr * list Z)) (om : list Z * list Z) : list Z * list Z := fold_left (fun om v => push (side_for (fst v)) (snd v) om) vs om.
Lemma read_variants : forall ns vs, variants ns vs -> forall om m r, is (txt "tu") m -> x_end m = true ->
  readTU lo lm None om (ns ++ m :: r) = Some (push_all vs om, r).
Proof.
  intros ns vs H. induction H as [|n ns vs N1 N2 H IH|n ns x l v ns' vs Hn En Ln Hc Hx Ex H IH]; intros om m r Hm Em; cbn [app readTU].
  - rewrite (proj2 (named_is e_tu m) Hm), Em. reflexivity.
  - assert (K : named e_tu n && x_end n = false) by (destruct (named e_tu n) eqn:E; [|reflexivity]; apply named_is in E; now rewrite (N1 E)).
    assert (K2 : named e_tuv n && negb (x_end n) = false) by (destruct (named e_tuv n) eqn:E; [|reflexivity]; apply named_is in E; now rewrite (N2 E)).
    rewrite K, K2. now apply IH.
  - other Hn e_tu. rewrite (proj2 (named_is e_tuv n) Hn), En. cbn [andb negb]. rewrite <- app_assoc. cbn [app].
    rewrite (read_content ns v Hc _ om x (ns' ++ m :: r) Hx Ex), (language_side n l Ln), (IH _ m r Hm Em). reflexivity.
Qed.
Lemma push_all_ok : forall vs o m, push_all vs (o, m) = (o ++ in_language lo vs, m ++ in_language lm vs).
Proof.
  induction vs as [|[l v] vs IH]; intros o m; cbn [push_all fold_left in_language flat_map]; [now rewrite !app_nil_r|].
  fold (push_all vs (push (side_for l) v (o, m))). cbn [fst snd]. unfold side_for, ExpanderModel.ueq.
  destruct (ustr_eq_dec l lm) as [->|Nm].
  - destruct (ustr_eq_dec lm lo) as [E|_]; [congruence|]. cbn [push fst snd app]. rewrite IH. unfold in_language. now rewrite <- app_assoc.
  - destruct (ustr_eq_dec l lo) as [->|No]; cbn [push fst snd app]; rewrite IH; unfold in_language; now rewrite <- ?app_assoc.
Qed.

(** The words of a list of units *)
Definition words_of (us : list (list (ustr * list Z))) : pset :=
  fun w => exists u S T, In u us /\ unit_is blank digit (in_language lo u) (in_language lm u) S T /\ long_enough S T /\ w = align S T.
Definition unit_fine (u : list (ustr * list Z)) : Prop :=
  Z.of_nat (length (in_language lo u)) < 10 ^ 8 /\ (exists S T, unit_is blank digit (in_language lo u) (in_language lm u) S T)
  /\ ~ In 0 (in_language lo u) /\ ~ In 0 (in_language lm u).
Lemma nodes_ok : forall ns us, memory ns us -> Forall unit_fine us -> forall fuel a t A W, (length ns <= fuel)%nat -> memo a t A W ->
  exists a' t' A', tmxNodes isspace isdigit lo lm fuel a t ns = Ok (Some (a', t')) /\ memo a' t' A' (fun w => W w \/ words_of us w) /\ extends a a'.
Proof.
  intros ns us H. induction H as [|n ns us Hn H IH|n ns m vs ns' us Hn En Hv Hm Em H IH]; intros F fuel a t A W L M.
  - exists a, t, A. split; [destruct fuel; reflexivity|]. split; [|apply extends_refl].
    assert (X : forall w, W w \/ words_of [] w <-> W w) by (intros w; split; [intros [K|(u & S & T & [] & _)]; exact K|now left]).
    destruct M as [Ma Mt Mc Ml Mv]. constructor; [exact Ma|exact Mt|apply (cov_iff a W); [intros w; symmetry; apply X|exact Mc]| |exact Mv].
    intros u. rewrite Ml. symmetry. now apply Tg_iff.
  - destruct fuel as [|fuel]; [cbn in L; lia|]. cbn [tmxNodes].
    assert (K : named e_tu n = false /\ existsb (fun x => named x n) [n_text; e_tmx; e_header; e_body; e_prop; n_comment] = true).
    { split.
      - apply named_not. unfold is. intros E. rewrite E in Hn. vm_compute in Hn. repeat destruct Hn as [Hn|Hn]; try discriminate Hn. destruct Hn.
      - apply existsb_exists. exists (x_name n). split; [|now apply named_is]. cbn [In] in Hn |- *.
        destruct Hn as [E|[E|[E|[E|[E|[E|[]]]]]]]; rewrite <- E; vm_compute; auto 10. }
    destruct K as [-> ->]. apply (IH F fuel a t A W); [cbn in L; lia|exact M].
  - destruct fuel as [|fuel]; [cbn in L; lia|]. cbn [tmxNodes]. rewrite (proj2 (named_is e_tu n) Hn), En.
    rewrite (read_variants ns vs Hv ([], []) m ns' Hm Em), push_all_ok. cbn [app].
    apply Forall_cons_iff in F as [(Ln & (S & T & U) & Z1 & Z2) F].
    rewrite (sides_ok isspace isdigit _ _ S T Ln U). cbn [obind].
    assert (In_ : forall c, In c S -> c <> 0 /\ c <> mark_symbol).
    { intros c Ic. destruct (proj1 (unit_in _ _ _ _ _ _ c U) Ic) as [K1 [-> |[-> |K2]]]; (split; [|exact K1]); [lia|unfold number_symbol; lia|]. intros ->. contradiction. }
    assert (In2 : forall c, In c T -> c <> 0 /\ c <> mark_symbol).
    { intros c Ic. destruct (proj2 (unit_in _ _ _ _ _ _ c U) Ic) as [K1 [K2|K2]]; (split; [|exact K1]); [lia|]. intros ->. contradiction. }
    destruct (insertTU_ok S T a t A W M) as (a1 & t1 & A1 & -> & M1 & X1).
    { intros K. now apply (proj1 (In_ 0 K)). } { intros K. now apply (proj1 (In2 0 K)). }
    { intros r ->. apply (proj2 (In_ mark_symbol (or_introl eq_refl))). reflexivity. } { intros r ->. apply (proj2 (In2 mark_symbol (or_introl eq_refl))). reflexivity. }
    cbn [obind]. destruct (IH F fuel a1 t1 A1 (fun w => W w \/ (long_enough S T /\ w = align S T))) as (a' & t' & A' & E & [Ma Mt Mc Ml Mv] & X'); [cbn [length] in L; rewrite app_length in L; cbn [length] in L; lia|exact M1|].
    exists a', t', A'. split; [exact E|]. split; [|exact (extends_trans _ _ _ X1 X')].
    assert (Y : forall w, (W w \/ (long_enough S T /\ w = align S T)) \/ words_of us w <-> W w \/ words_of (vs :: us) w).
    { intros w. split.
      - intros [[K|[K1 K2]]|(u & S' & T' & Iu & K)]; [now left|right; exists vs, S, T; split; [now left|auto]|right; exists u, S', T'; split; [now right|exact K]].
      - intros [K|(u & S' & T' & [<-|Iu] & U' & K)]; [left; now left| |right; exists u, S', T'; auto].
        left. right. pose proof (sides_ok isspace isdigit _ _ S T Ln U) as E1. rewrite (sides_ok isspace isdigit _ _ S' T' Ln U') in E1. injection E1 as -> ->. exact K. }
    constructor; [exact Ma|exact Mt|exact (cov_iff a' _ _ Y Mc)| |exact Mv]. intros u. rewrite Ml. now apply Tg_iff.
Qed.
End Documents.

Lemma start_memo : memo start_alphabet new_transducer (fun q => q = 0%nat) (fun _ => False).
Proof.
  constructor.
  - split; [apply include_inv, include_inv, new_inv|reflexivity].
  - exact (md_trie _ _ _ _ _ _ _ (mid_new (fun _ => no_words) [] start_alphabet)).
  - intros w p [].
  - intros u. rewrite lang_reach. split; [intros (q & _ & (f & [])) | intros (w & [] & _)].
  - intros q (f & []).
Qed.
Lemma tmxcomp_ok : forall isspace isdigit lo lm ns us, lo <> lm -> memory ns us -> Forall (unit_fine isspace isdigit lo lm) us ->
  exists a t, lt_tmxcomp isspace isdigit lo lm ns = Ok (Some (a, t)) /\ extends start_alphabet a /\ alph_inv0 a /\ wf t
    /\ forall u, lang t 0 u <-> Tg a (words_of isspace isdigit lo lm us) u.
Proof.
  intros isspace isdigit lo lm ns us Hl H F.
  destruct (nodes_ok isspace isdigit lo lm Hl ns us H F (length ns) _ _ _ _ (le_n _) start_memo) as (a & t & A & E & [Ma Mt Mc Ml Mv] & X).
  unfold lt_tmxcomp. rewrite E. cbn [obind].
  assert (Y : forall u, lang t 0 u <-> Tg a (words_of isspace isdigit lo lm us) u).
  { intros u. rewrite Ml. apply Tg_iff. intros w. split; [intros [[]|K]; exact K|now right]. }
  destruct (finals t) as [|[q f] r] eqn:Ef.
  - unfold minimize. rewrite Ef. cbn [obind]. exists a, t. split; [reflexivity|]. split; [exact X|]. split; [exact Ma|]. split; [exact (tr_wf _ _ Mt)|exact Y].
  - assert (Fq : is_final t q) by (exists f; unfold final_wt; rewrite Ef; now left). destruct (Mv q Fq) as (u & Ru).
    assert (Lu : lang t 0 u) by (apply lang_reach; now exists q).
    destruct (C21_minimize t 0 (tr_wf _ _ Mt) (ex_intro _ u Lu)) as (m & -> & Wm & Lm & _). cbn [obind]. exists a, m. split; [reflexivity|].
    split; [exact X|]. split; [exact Ma|]. split; [exact Wm|]. intros v. now rewrite Lm.
Qed.

(** * Every unit has sides *)
Section Exists.
Context (isspace isdigit : Z -> bool).
Notation blank := (fun c => isspace c = true).
Notation digit := (fun c => isdigit c = true).
Lemma front_blanks : forall v, exists a w, v = a ++ w /\ Forall blank a /\ (forall c r, w = c :: r -> ~ blank c).
Proof.
  induction v as [|c v (a & w & -> & F & H)]; [exists [], []; repeat split; [constructor|discriminate]|].
  destruct (isspace c) eqn:E; [exists (c :: a), w; repeat split; [now constructor|exact H]|].
  exists [], (c :: a ++ w). repeat split; [constructor|]. intros d r [= <- _]. cbn beta. now rewrite E.
Qed.
Lemma trimmed_exists : forall v, exists w, trimmed blank v w.
Proof.
  intros v. destruct (front_blanks v) as (a & w & -> & F & H). destruct (front_blanks (rev w)) as (b & x & E & Fb & Hb).
  apply (f_equal (@rev Z)) in E. rewrite rev_involutive, rev_app_distr in E. subst w. exists (rev x), a, (rev b).
  split; [reflexivity|]. split; [exact F|]. split; [now apply Forall_rev|]. split.
  - intros c r Ex. apply (H c (r ++ rev b)). now rewrite Ex.
  - intros c r Ex. apply (Hb c (rev r)). rewrite <- (rev_involutive x), Ex, rev_app_distr. reflexivity.
Qed.
Lemma front_number : forall v, (forall x d y, v = x ++ d :: y -> Forall (numeric digit) x -> ~ digit d)
  \/ exists x d r, v = x ++ d :: r /\ Forall (numeric digit) x /\ digit d /\ (forall x d y, r = x ++ d :: y -> Forall (numeric digit) x -> ~ digit d).
Proof.
  induction v as [|c v IH]; [left; intros [|? ?] d y; discriminate|].
  assert (D : digit c \/ ~ digit c) by (cbn beta; destruct (isdigit c); auto).
  assert (N : numeric digit c \/ ~ numeric digit c).
  { unfold numeric. destruct D as [D|D]; [auto|]. destruct (Z.eq_dec c 46); [auto|]. destruct (Z.eq_dec c 44); [auto|]. right. tauto. }
  destruct N as [N|N]; [|left; intros [|y x] d z [= <- E] Fx; [intros Hd; apply N; now left|exfalso; apply N; exact (Forall_inv Fx)]].
  destruct IH as [IH|(x & d & r & -> & Fx & Hd & Hr)]; [|right; exists (c :: x), d, r; repeat split; [now constructor|exact Hd|exact Hr]].
  destruct D as [D|D]; [right; exists [], c, v; repeat split; [constructor|exact D|exact IH]|].
  left. intros [|y x] d z [= <- E] Fx; [exact D|]. exact (IH x d z E (Forall_inv_tail Fx)).
Qed.
Lemma cut_exists : forall v, exists ts, cut digit v ts.
Proof.
  intros v. remember (length v) as k eqn:Ek. assert (L : (length v <= k)%nat) by lia. clear Ek. revert v L.
  induction k as [|k IH]; intros [|c v] L; [exists []; constructor|cbn in L; lia|exists []; constructor|]. cbn [length] in L.
  destruct (isdigit c) eqn:E.
  - assert (Nc : numeric digit c) by now left. destruct (front_number v) as [H|(x & d & r & -> & Fx & Hd & Hr)].
    + destruct (IH v) as (ts & C); [lia|]. exists (Num [c] :: ts). apply (cut_num digit [c]); [|exact H|exact C].
      split; [now constructor|]. split; [now exists c, []|now exists c, []].
    + rewrite app_length in L. cbn [length] in L. destruct (IH r) as (ts & C); [lia|]. exists (Num ((c :: x) ++ [d]) :: ts).
      replace (c :: x ++ d :: r) with (((c :: x) ++ [d]) ++ r) by now rewrite <- app_assoc.
      apply cut_num; [|exact Hr|exact C]. split; [apply Forall_app; split; [now constructor|constructor; [now left|constructor]]|].
      split; [now exists c, (x ++ [d])|now exists d, (c :: x)].
  - destruct (IH v) as (ts & C); [lia|]. exists (Char c :: ts). constructor; [cbn beta; now rewrite E|exact C].
Qed.
Lemma parts_exists : forall v, exists ps, parts v ps.
Proof.
  induction v as [|c v (ps & H)]; [exists []; constructor|].
  destruct (Z.eq_dec c mark_symbol) as [-> |N]; [exists ([] :: ps); now apply (pa_more [])|].
  destruct H as [|p Hp Hn|p v ps Hn H].
  - exists [[c]]. apply pa_last; [discriminate|]. intros [K|[]]; now apply N.
  - exists [c :: p]. apply pa_last; [discriminate|]. intros [K|K]; auto.
  - exists ((c :: p) :: ps). apply (pa_more (c :: p)); [intros [K|K]; auto|exact H].
Qed.
Lemma first_exists : forall n ns, In n ns -> exists k, first_at k n ns.
Proof.
  intros n ns H. destruct (index_some n ns H) as (k & E & _). exists k. revert k E. clear H.
  induction ns as [|x ns IH]; intros k E; [discriminate E|]. cbn [number_index] in E. destruct (ustr_eq_dec n x) as [-> |N].
  - injection E as <-. split; [reflexivity|lia].
  - destruct (number_index n ns) as [j|]; [|discriminate E]. injection E as <-. destruct (IH j eq_refl) as [A B]. split; [exact A|].
    intros [|i] Hi; cbn [nth_error]; [congruence|apply B; lia].
Qed.
Lemma target_exists : forall ns ts, Forall (fun n => In n ns) (numbers ts) -> exists t, target ns ts t.
Proof.
  intros ns ts. induction ts as [|[n|c] ts IH]; intros F; [exists []; constructor| |].
  - destruct (first_exists n ns (Forall_inv F)) as (k & Hk). destruct (decimal_exists (Z.of_nat k + 1) ltac:(lia)) as (d & Hd).
    destruct (IH (Forall_inv_tail F)) as (t & Ht). eexists. exact (ta_num ns n k d ts t Hk Hd Ht).
  - destruct (IH F) as (t & Ht). exists (c :: t). now constructor.
Qed.
Lemma Forall2_exists : forall {X Y} (R : X -> Y -> Prop) l, (forall x, exists y, R x y) -> exists m, Forall2 R l m.
Proof. intros X Y R l H. induction l as [|x l (m & IH)]; [exists []; constructor|]. destruct (H x) as (y & Hy). exists (y :: m). now constructor. Qed.
Lemma sides_exist : forall s t, (forall s0 t0, trimmed blank s s0 -> trimmed blank t t0 -> exists S T, numbered digit s0 t0 S T) ->
  exists S T, unit_is blank digit s t S T.
Proof.
  intros s t H. destruct (trimmed_exists s) as (s0 & Hs). destruct (trimmed_exists t) as (t0 & Ht). destruct (H s0 t0 Hs Ht) as (s1 & t1 & Hn).
  destruct (parts_exists s1) as (ps & Hp). destruct (parts_exists t1) as (qs & Hq).
  destruct (Forall2_exists (trimmed blank) ps trimmed_exists) as (ps' & Hp'). destruct (Forall2_exists (trimmed blank) qs trimmed_exists) as (qs' & Hq').
  exists (between (txt " ") ps'), (between (txt "(#)") qs'), s0, t0, s1, t1, ps, qs, ps', qs'. auto 12.
Qed.
Lemma numbered_exists : forall s t,
  (forall ss ts n ts', cut digit s ss -> cut digit t (ts ++ Num n :: ts') -> In n (numbers ss) \/ (length n <= length (flat_map text_of ts))%nat) ->
  exists S T, numbered digit s t S T.
Proof.
  intros s t H. destruct (cut_exists s) as (ss & Cs). destruct (cut_exists t) as (ts & Ct).
  assert (D : Forall (fun n => In n (numbers ss)) (numbers ts) \/ exists xs n ys, ts = xs ++ Num n :: ys /\ Forall (fun m => In m (numbers ss)) (numbers xs) /\ ~ In n (numbers ss)).
  { clear Ct H. induction ts as [|[n|c] ts IH]; [left; constructor| |].
    - destruct (in_dec (list_eq_dec Z.eq_dec) n (numbers ss)) as [I|I]; [|right; exists [], n, ts; repeat split; [constructor|exact I]].
      destruct IH as [IH|(xs & m & ys & -> & F & N)]; [left; constructor; assumption|right; exists (Num n :: xs), m, ys; repeat split; [constructor; assumption|exact N]].
    - destruct IH as [IH|(xs & m & ys & -> & F & N)]; [left; exact IH|right; exists (Char c :: xs), m, ys; repeat split; [exact F|exact N]]. }
  destruct D as [D|(xs & n & ys & -> & F & N)].
  - destruct (target_exists (numbers ss) ts D) as (t' & T). exists (source ss), t'. exact (nu_matched digit s t ss ts t' Cs Ct T).
  - destruct (H ss xs n ys Cs Ct) as [I|I]; [contradiction|]. exists s, t. exact (nu_kept digit s t ss xs n ys Cs Ct F N I).
Qed.
End Exists.
