(** C92: the case of words. *)
From Verif Require Import Base StringModel CaseModel.

(** * Specification *)
(** Unicode characters and their UTF-16 form (Unicode standard, table 3-5) *)
Definition character (c : Z) : Prop := 0 <= c < 55296 \/ 57344 <= c < 1114112.
Definition utf16 (c : Z) : list Z :=
  if c <? 65536 then [c] else [55296 + (c - 65536) / 1024; 56320 + (c - 65536) mod 1024].
Definition text (cs : list Z) : list Z := concat (map utf16 cs).
(** the three ways a word is written: by its first and last characters *)
Inductive writing := Small | Capital | Capitals.
Inductive written (upper : Z -> bool) : list Z -> writing -> Prop :=
| wr_none : written upper [] Small
| wr_small c r : upper c = false -> written upper (c :: r) Small
| wr_one c : upper c = true -> written upper [c] Capital
| wr_capital c m d : upper c = true -> upper d = false -> written upper (c :: m ++ [d]) Capital
| wr_capitals c m d : upper c = true -> upper d = true -> written upper (c :: m ++ [d]) Capitals.
Definition sample (w : writing) : list Z :=
  match w with Small => [97; 97] | Capital => [65; 97] | Capitals => [65; 65] end.

(** * Proofs *)
Lemma unit_at_app : forall pre x r, unit_at (pre ++ x :: r) (length pre) = Ok x.
Proof. intros. unfold unit_at. rewrite nth_error_app2 by lia. now rewrite Nat.sub_diag. Qed.
Lemma unit_at_app1 : forall pre x y r, unit_at (pre ++ x :: y :: r) (S (length pre)) = Ok y.
Proof. intros. unfold unit_at. rewrite nth_error_app2 by lia. now replace (S (length pre) - length pre)%nat with 1%nat by lia. Qed.
Lemma utf16_cases : forall c, character c ->
  (utf16 c = [c] /\ is_lead c = false /\ is_trail c = false) \/
  exists u v, utf16 c = [u; v] /\ is_lead u = true /\ is_trail v = true /\ is_lead v = false /\ is_trail u = false /\ supplementary u v = c.
Proof.
  intros c H. unfold character in H. unfold utf16, is_lead, is_trail, supplementary. destruct (Z.ltb_spec c 65536).
  - left. split; [reflexivity|]. split; lia.
  - right. pose proof (Z.mod_pos_bound (c - 65536) 1024 ltac:(lia)) as M.
    assert (D : 0 <= (c - 65536) / 1024 < 1024) by (split; [apply Z.div_pos; lia|apply Z.div_lt_upper_bound; lia]).
    pose proof (Z.div_mod (c - 65536) 1024 ltac:(lia)) as Q.
    generalize dependent ((c - 65536) / 1024). generalize dependent ((c - 65536) mod 1024). intros m M d D Q.
    exists (55296 + d), (56320 + m). split; [reflexivity|]. repeat split; lia.
Qed.
Lemma next_first : forall c r, character c -> u16_next (utf16 c ++ r) 0 (length (utf16 c ++ r)) = Ok (c, length (utf16 c)).
Proof.
  intros c r H. destruct (utf16_cases c H) as [(-> & L & _)|(u & v & -> & L & T & _ & _ & Su)]; unfold u16_next, unit_at; cbn [app nth_error obind length].
  - now rewrite L.
  - rewrite L. cbn [andb negb Nat.eqb]. cbn [obind]. now rewrite T, Su.
Qed.
Lemma back_last : forall pre d start, character d -> (start <= length pre)%nat ->
  u16_back (pre ++ utf16 d) start (length (pre ++ utf16 d)) = Ok (length pre) /\
  u16_get (pre ++ utf16 d) 0 (length pre) (length (pre ++ utf16 d)) = Ok d.
Proof.
  intros pre d start H Hs. rewrite app_length. destruct (utf16_cases d H) as [(-> & L & T)|(u & v & -> & L & T & L' & T' & Su)]; cbn [length].
  - rewrite Nat.add_1_r. unfold u16_back, u16_get. rewrite unit_at_app. cbn [obind]. now rewrite L, T.
  - replace (length pre + 2)%nat with (S (S (length pre))) by lia. unfold u16_back, u16_get. rewrite unit_at_app1, unit_at_app. cbn [obind].
    replace (S (length pre) - 1)%nat with (length pre) by lia. rewrite unit_at_app. cbn [obind]. rewrite L, T.
    destruct (Nat.ltb_spec start (S (length pre))); [|lia]. cbn [andb obind].
    destruct (Nat.eqb_spec (S (length pre)) (S (S (length pre)))); [lia|]. cbn [negb obind]. rewrite ?T, ?Su. now split.
Qed.
Lemma utf16_length : forall c, (1 <= length (utf16 c))%nat.
Proof. intro c. unfold utf16. destruct (c <? 65536); cbn; lia. Qed.
Lemma text_snoc : forall c m d, text (c :: m ++ [d]) = utf16 c ++ text m ++ utf16 d.
Proof. intros. unfold text. cbn [map concat]. rewrite map_app, concat_app. cbn. now rewrite app_nil_r. Qed.
Lemma text_empty : forall cs, text cs = [] -> cs = [].
Proof.
  intros [|c cs] H; [reflexivity|]. unfold text in H. cbn in H. apply (f_equal (@length Z)) in H. rewrite app_length in H.
  pose proof (utf16_length c). cbn in H. lia.
Qed.
(** every word is written in exactly one way *)
Lemma written_some : forall up cs, exists w, written up cs w.
Proof.
  intros up [|c r]; [eexists; constructor|]. destruct (up c) eqn:C; [|eexists; now constructor].
  destruct r as [|e r] using rev_ind; [eexists; now apply wr_one|]. destruct (up e) eqn:D; eexists; [now apply wr_capitals|now apply wr_capital].
Qed.

(** what both functions look at *)
Lemma first_last : forall up cs w, Forall character cs -> written up cs w -> cs <> [] ->
  exists c i, u16_next (text cs) 0 (length (text cs)) = Ok (c, i) /\ (i <= length (text cs))%nat /\
    (up c = false -> w = Small) /\ (up c = true -> i = length (text cs) -> w = Capital) /\
    (up c = true -> (i < length (text cs))%nat -> exists l d, u16_back (text cs) i (length (text cs)) = Ok l /\
       u16_get (text cs) 0 l (length (text cs)) = Ok d /\ w = if up d then Capitals else Capital).
Proof.
  intros up cs w F W N. destruct cs as [|c r]; [congruence|]. inversion F as [|? ? Fc Fr]; subst.
  exists c, (length (utf16 c)). change (text (c :: r)) with (utf16 c ++ text r). split; [now apply next_first|].
  split; [rewrite app_length; lia|]. split; [|split].
  - intro C. inversion W; subst; congruence.
  - intros C Len. rewrite app_length in Len. assert (T : text r = []) by (destruct (text r); [reflexivity|cbn in Len; lia]).
    apply text_empty in T. subst r. inversion W as [|? ? Q|? Q|? m d Q D|? m d Q D]; subst; try congruence; destruct m; discriminate.
  - intros C Len. inversion W as [|? ? Q|? Q|? m d Q D|? m d Q D]; subst; try congruence.
    + unfold text in Len. cbn in Len. rewrite app_length in Len. cbn in Len. lia.
    + apply Forall_app in Fr as [_ Fd]. inversion Fd as [|? ? Fd' _]; subst.
      destruct (back_last (utf16 c ++ text m) d (length (utf16 c)) Fd') as [B G]; [rewrite app_length; lia|].
      change (utf16 c ++ text (m ++ [d])) with (text (c :: m ++ [d])). rewrite text_snoc, app_assoc. exists (length (utf16 c ++ text m)), d.
      rewrite D. auto.
    + apply Forall_app in Fr as [_ Fd]. inversion Fd as [|? ? Fd' _]; subst.
      destruct (back_last (utf16 c ++ text m) d (length (utf16 c)) Fd') as [B G]; [rewrite app_length; lia|].
      change (utf16 c ++ text (m ++ [d])) with (text (c :: m ++ [d])). rewrite text_snoc, app_assoc. exists (length (utf16 c ++ text m)), d.
      rewrite D. auto.
Qed.

Section Results.
  Context (up : Z -> bool) (lower upper title : list Z -> list Z).
  (** C92: the way a word is written, whatever planes its characters are in *)
  Theorem C92_getcase : forall cs w, Forall character cs -> written up cs w -> getcase up (text cs) = Ok (sample w).
  Proof.
    intros cs w F W. unfold getcase. destruct (text cs) as [|u s] eqn:E.
    - apply text_empty in E. subst. inversion W. reflexivity.
    - assert (N : cs <> []) by (intros ->; discriminate E). rewrite <- E. clear E u s. cbv zeta.
      destruct (first_last up cs w F W N) as (c & i & -> & Hi & H0 & H1 & H2). cbn [obind].
      destruct (up c) eqn:C; [|now rewrite H0]. destruct (Nat.ltb_spec i (length (text cs))) as [L|L].
      + destruct (H2 eq_refl L) as (l & d & -> & G & ->). cbn [obind]. rewrite G. cbn [obind]. now destruct (up d).
      + rewrite H1; [reflexivity|reflexivity|lia].
  Qed.
  Definition rendering (w : writing) : list Z -> list Z := match w with Small => lower | Capital => title | Capitals => upper end.
  (** C92: the target is rewritten in the way the source is written, if that at most doubles its
      length; otherwise the program ends.  Nothing is done if one of them is empty. *)
  Theorem C92_copycase : forall cs w target, Forall character cs -> written up cs w -> cs <> [] -> target <> [] ->
    copycase up lower upper title (text cs) target =
      (if (length (rendering w target) <=? 2 * length target)%nat then Ok (rendering w target) else Exit).
  Proof.
    intros cs w target F W N T. unfold copycase. destruct (text cs) as [|u s] eqn:E; [apply text_empty in E; contradiction|].
    destruct target as [|x target]; [congruence|]. rewrite <- E. clear E u s T. generalize (x :: target). intro t. cbv zeta.
    destruct (first_last up cs w F W N) as (c & i & -> & Hi & H0 & H1 & H2). cbn [obind]. rewrite (Nat.mul_comm 2).
    destruct (up c) eqn:C; [|rewrite (H0 eq_refl); reflexivity]. destruct (Nat.eqb_spec i (length (text cs))) as [L|L]; cbn [negb].
    - rewrite (H1 eq_refl L). reflexivity.
    - destruct (H2 eq_refl ltac:(lia)) as (l & d & -> & G & ->). cbn [obind]. rewrite G. cbn [obind]. now destruct (up d).
  Qed.
  Theorem C92_empty : forall t, copycase up lower upper title [] t = Ok t /\ copycase up lower upper title t [] = Ok [].
  Proof. intro t. split; [reflexivity|now destruct t]. Qed.
End Results.
(** C92: every word is written in exactly one way, so the two theorems speak of all words *)
Theorem C92_one_way : forall up cs, exists! w, written up cs w.
Proof.
  intros up cs. destruct (written_some up cs) as (w & W). exists w. split; [exact W|]. intros v V.
  assert (X : forall m n (d e : Z), m ++ [d] = n ++ [e] -> d = e) by (intros m n d e Q; now apply app_inj_tail in Q as [_ ->]).
  inversion W; subst; inversion V; subst; try reflexivity; try congruence;
    try (match goal with H : [] = ?m ++ [_] |- _ => destruct m; discriminate H | H : ?m ++ [_] = [] |- _ => destruct m; discriminate H end);
    match goal with H : _ ++ [_] = _ ++ [_] |- _ => apply X in H; congruence end.
Qed.
(** C92: nothing outside a word is read, also if there are halves of surrogate pairs in it *)
Lemma unit_at_some : forall s i, (i < length s)%nat -> exists c, unit_at s i = Ok c.
Proof. intros s i H. unfold unit_at. destruct (nth_error s i) eqn:E; [eauto|]. apply nth_error_None in E. lia. Qed.
Lemma next_some : forall s, s <> [] -> exists c i, u16_next s 0 (length s) = Ok (c, i) /\ (1 <= i <= length s)%nat.
Proof.
  intros [|u s] H; [congruence|]. unfold u16_next, unit_at at 1. cbn [nth_error obind].
  destruct (is_lead u && negb (1 =? length (u :: s))%nat) eqn:E; [|exists u, 1%nat; split; [reflexivity|cbn [length]; lia]].
  apply andb_prop in E as [_ E]. apply negb_true_iff, Nat.eqb_neq in E. cbn [length] in E.
  destruct (unit_at_some (u :: s) 1) as (v & ->); [cbn [length]; lia|]. cbn [obind length].
  destruct (is_trail v); do 2 eexists; (split; [reflexivity|lia]).
Qed.
Lemma back_some : forall s i, (i < length s)%nat -> exists l, u16_back s i (length s) = Ok l /\ (l < length s)%nat.
Proof.
  intros s i H. destruct (length s) as [|n] eqn:L; [lia|]. cbn [u16_back]. destruct (unit_at_some s n) as (c & ->); [lia|]. cbn [obind].
  destruct (is_trail c && (i <? n)%nat) eqn:E; [|exists n; split; [reflexivity|lia]].
  destruct (unit_at_some s (n - 1)) as (d & ->); [lia|]. cbn [obind]. destruct (is_lead d); eexists; (split; [reflexivity|lia]).
Qed.
Lemma get_some : forall s i, (i < length s)%nat -> exists c, u16_get s 0 i (length s) = Ok c.
Proof.
  intros s i H. unfold u16_get. destruct (unit_at_some s i H) as (c & ->). cbn [obind]. destruct (is_lead c).
  - destruct (Nat.eqb_spec (S i) (length s)); cbn [negb]; [eauto|]. destruct (unit_at_some s (S i)) as (d & ->); [lia|]. cbn [obind]. eauto.
  - destruct (is_trail c); [|eauto]. destruct (0 <? i)%nat; [|eauto]. destruct (unit_at_some s (i - 1)) as (d & ->); [lia|]. cbn [obind]. eauto.
Qed.
Theorem C92_safe : forall up lower upper title s t,
  (exists w, getcase up s = Ok (sample w)) /\
  (copycase up lower upper title s t = Exit \/ exists r, copycase up lower upper title s t = Ok r /\ (length r <= 2 * length t)%nat).
Proof.
  intros up lower upper title s t.
  assert (B : forall f, in_buffer f t = Exit \/ exists r, in_buffer f t = Ok r /\ (length r <= 2 * length t)%nat).
  { intro f. unfold in_buffer. destruct (Nat.leb_spec (length (f t)) (length t * 2)); [right; eexists; split; [reflexivity|lia]|now left]. }
  destruct s as [|u s].
  { split; [now exists Small|]. right. exists t. split; [reflexivity|lia]. }
  unfold getcase, copycase. cbv zeta. destruct (next_some (u :: s) ltac:(discriminate)) as (c & i & -> & Hi). cbn [obind].
  assert (K : (i < length (u :: s))%nat -> exists l d, u16_back (u :: s) i (length (u :: s)) = Ok l /\ u16_get (u :: s) 0 l (length (u :: s)) = Ok d).
  { intro L. destruct (back_some _ _ L) as (l & E & Hl). destruct (get_some _ _ Hl) as (d & G). eauto. }
  split.
  - destruct (up c); [|now exists Small]. destruct (Nat.ltb_spec i (length (u :: s))) as [L|L]; [|now exists Capital].
    destruct (K L) as (l & d & -> & G). cbn [obind]. rewrite G. cbn [obind]. destruct (up d); [now exists Capitals|now exists Capital].
  - destruct t as [|x t]; [right; exists []; split; [reflexivity|cbn; lia]|].
    destruct (up c); [|cbn [obind]; apply B]. destruct (Nat.eqb_spec i (length (u :: s))) as [L|L]; cbn [negb].
    + cbn [obind]. apply B.
    + destruct (K ltac:(lia)) as (l & d & -> & G). cbn [obind]. rewrite G. cbn [obind]. destruct (up d); apply B.
Qed.
(** C92, refuted: the case of a word cannot always be copied.  In Unicode the upper case of
    U+0390 is three characters (SpecialCasing.txt), which do not fit into the two units there
    are, and the program ends. *)
Theorem C92_long_refuted : forall up lower upper title, up 65 = true -> upper [912] = [921; 776; 769] ->
  copycase up lower upper title [65; 65] [912] = Exit.
Proof.
  intros up lower upper title U R. change [65; 65] with (text [65; 65]).
  rewrite (C92_copycase up lower upper title [65; 65] Capitals [912]).
  - cbn [rendering]. rewrite R. reflexivity.
  - repeat constructor; lia.
  - apply (wr_capitals up 65 [] 65); exact U.
  - discriminate.
  - discriminate.
Qed.

(** ** Cases: U+10400 is a capital outside the first plane, U+10428 its small letter *)
Definition ex_upper (c : Z) : bool := ((65 <=? c) && (c <=? 90)) || ((66560 <=? c) && (c <=? 66599)).
Example ex_getcase :
  getcase ex_upper [97; 66] = Ok [97; 97] /\ getcase ex_upper [65] = Ok [65; 97] /\
  getcase ex_upper (text [66560; 98]) = Ok [65; 97] /\ getcase ex_upper (text [66560; 98; 66561]) = Ok [65; 65] /\
  getcase ex_upper (text [66560]) = Ok [65; 97] /\ getcase ex_upper (text [65; 66600]) = Ok [65; 97].
Proof. repeat split. Qed.
Example ex_halves : getcase ex_upper [65; 0xD801] = Ok [65; 97] /\ getcase ex_upper [0xDC00; 65] = Ok [97; 97] /\ getcase ex_upper [0xD801; 0xDC00; 0xDC00] = Ok [65; 97].
Proof. repeat split. Qed.
Definition ex_up (s : list Z) : list Z := map (fun c => if (97 <=? c) && (c <=? 122) then c - 32 else c) s.
Example ex_copy : copycase ex_upper (fun s => s) ex_up (fun s => ex_up (firstn 1 s) ++ skipn 1 s) (text [65; 98; 66561]) [98; 99] = Ok [66; 67]
  /\ copycase ex_upper (fun s => s) ex_up (fun s => ex_up (firstn 1 s) ++ skipn 1 s) [65] [98; 99] = Ok [66; 99].
Proof. repeat split. Qed.
Print Assumptions C92_getcase.
Print Assumptions C92_copycase.
Print Assumptions C92_empty.
Print Assumptions C92_one_way.
Print Assumptions C92_safe.
Print Assumptions C92_long_refuted.
