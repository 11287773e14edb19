(** C91: matched rules of lexical selection. *)
From Coq Require Import Sorted Permutation.
From Verif Require Import Base CompressionModel StringCodecProofs AlphabetModel StateModel StateSpec FinalsModel LrxModel.

(** * Specification *)
(** a code point in UTF-16 *)
Definition units (c : Z) : list Z :=
  if c <? 65536 then [c] else [55296 + (c - 65536) / 1024; 56320 + (c - 65536) mod 1024].
Section Spec.
  Context (toupper : Z -> Z) (fins : list (nat * Z)) (names : list (list Z)) (special : Z -> bool) (upper : bool).
  (** a tag is shown by its name, a character by itself, in upper case if that is asked for,
      and after a backslash if it is special *)
  Inductive shown : Z -> list Z -> Prop :=
  | sh_nothing : shown 0 []
  | sh_tag k t : nth_error names k = Some t -> shown (- Z.of_nat k - 1) t
  | sh_char c : 0 < c -> shown c ((if special c then [92] else []) ++ units (if upper then toupper c else c)).
  (** symbols none of which is shown as the mark *)
  Inductive part : list Z -> list Z -> Prop :=
  | pa_none : part [] []
  | pa_more c t l r : shown c t -> t <> [60; 36; 62] -> part l r -> part (c :: l) (t ++ r).
  (** words with the mark behind each of them, the empty ones not counted, then the name of the
      rule *)
  Inductive says : list Z -> list Z * list (list Z) -> Prop :=
  | sy_name l t : part l t -> says l (t, [])
  | sy_word l t m r n ws : part l t -> t <> [] -> shown m [60; 36; 62] -> says r (n, ws) -> says (l ++ [m] ++ r) (n, t :: ws)
  | sy_empty l m r n ws : part l [] -> shown m [60; 36; 62] -> says r (n, ws) -> says (l ++ [m] ++ r) (n, ws).
End Spec.
(** the names of the alphabet, and characters, are proper *)
Definition proper (toupper : Z -> Z) (special : Z -> bool) : Prop :=
  (forall c, c <= 0 -> special c = false) /\ (forall c, 0 < c < 1114112 -> 0 < toupper c < 1114112).
Definition in_range (names : list (list Z)) (seq : list Z) : Prop :=
  Forall (fun c => - Z.of_nat (length names) <= c < 1114112) seq.

(** * Proofs *)
Lemma units_append : forall c, 0 < c < 1114112 -> append_cp [] c = units c.
Proof.
  intros c H. unfold append_cp, units. destruct (Z.leb_spec c 65535); destruct (Z.ltb_spec c 65536); try lia; cbn [app].
  - now rewrite Z.mod_small by (change (2 ^ 16) with 65536; lia).
  - change (2 ^ 16) with 65536. rewrite Z.shiftr_div_pow2 by lia. change (2 ^ 10) with 1024.
    change 0x3FF with (Z.ones 10). rewrite Z.land_ones by lia. change (2 ^ 10) with 1024. change 0x10000 with 65536.
    assert (0 <= (c - 65536) / 1024 < 1024).
    { split; [apply Z.div_pos; lia|apply Z.div_lt_upper_bound; lia]. }
    assert (M : c mod 1024 = (c - 65536) mod 1024).
    { replace c with ((c - 65536) + 64 * 1024) at 1 by lia. apply Z.mod_add. lia. }
    pose proof (Z.mod_pos_bound (c - 65536) 1024 ltac:(lia)).
    rewrite M, !Z.mod_small by lia. reflexivity.
Qed.
Section Proofs.
  Context (toupper : Z -> Z) (fins : list (nat * Z)) (a : alphabet) (special : Z -> bool) (upper : bool).
  Context (Pr : proper toupper special).
  Local Notation names := (slexicinv a).
  Local Notation walk := (lrx_walk toupper a special upper).
  Local Notation sh := (shown toupper names special upper).
  Lemma symbol_shown : forall c, - Z.of_nat (length names) <= c < 1114112 ->
    exists t, getSymbolCase toupper c upper a = Ok t /\ sh c ((if special c then [92] else []) ++ t).
  Proof.
    intros c H. destruct Pr as [P1 P2]. unfold getSymbolCase, getSymbol.
    destruct (Z.ltb_spec 0 c) as [Hc|Hc]; cbn [andb].
    - destruct (Z.eqb_spec c 0); [lia|]. destruct (Z.ltb_spec c 0); [lia|].
      pose proof (sh_char toupper names special upper c Hc) as S. destruct upper.
      + rewrite units_append by (apply P2; lia). eauto.
      + rewrite units_append by lia. eauto.
    - rewrite P1 by exact Hc. cbn [app]. destruct (Z.eqb_spec c 0) as [->|]; [exists []; split; [reflexivity|apply sh_nothing]|].
      destruct (Z.ltb_spec c 0); [|lia]. destruct (nth_error names (Z.to_nat (- c - 1))) as [t|] eqn:E.
      + exists t. split; [reflexivity|]. replace c with (- Z.of_nat (Z.to_nat (- c - 1)) - 1) by lia. now apply sh_tag.
      + apply nth_error_None in E. lia.
  Qed.
  Lemma shown_unique : forall c t u, sh c t -> sh c u -> t = u.
  Proof.
    intros c t u H1 H2. destruct H1; inversion H2; subst; try lia; try reflexivity.
    match goal with H : - Z.of_nat ?x - 1 = - Z.of_nat ?y - 1 |- _ => assert (x = y) by lia; subst end. congruence.
  Qed.
  Lemma mark_symbol : forall c t, - Z.of_nat (length names) <= c < 1114112 -> getSymbolCase toupper c upper a = Ok t ->
    t = mark -> special c = false /\ sh c mark.
  Proof.
    intros c t R E ->. destruct (symbol_shown c R) as (t & E' & S). rewrite E in E'. injection E' as <-.
    destruct (special c) eqn:Sp; [|auto]. exfalso. destruct Pr as [P1 P2].
    destruct (Z.le_gt_cases c 0) as [L|L]; [rewrite P1 in Sp by exact L; discriminate|].
    unfold getSymbolCase, getSymbol in E. destruct (Z.ltb_spec 0 c); [|lia]. cbn [andb] in E.
    assert (Len : forall x, length (append_cp [] x) <> 3%nat) by (intro x; unfold append_cp; destruct (x <=? 65535); discriminate).
    destruct upper; [|destruct (Z.eqb_spec c 0); [lia|]; destruct (Z.ltb_spec c 0); [lia|]]; injection E as E;
      [apply (Len (toupper c))|apply (Len c)]; rewrite E; reflexivity.
  Qed.
  (** the walk, begun in the middle of a word *)
  Lemma walk_says : forall seq word l0 words, in_range names (map fst seq) -> part toupper names special upper l0 word ->
    exists x ws, walk seq word words = Ok (x, words ++ ws) /\ says toupper names special upper (l0 ++ map fst seq) (x, ws).
  Proof.
    induction seq as [|[c w] seq IH]; intros word l0 words R P; cbn [lrx_walk map fst].
    - exists word, []. rewrite !app_nil_r. split; [reflexivity|]. now apply sy_name.
    - cbn [map fst] in R. inversion R as [|? ? Rc Rs]; subst.
      destruct (symbol_shown c Rc) as (t & E & S). rewrite E. cbn [obind].
      destruct (ustr_eq_dec t mark) as [Q|Q].
      + destruct (mark_symbol c t Rc E Q) as [Sp Sm]. rewrite Sp.
        destruct word as [|u word].
        * destruct (IH [] [] words Rs (pa_none _ _ _ _)) as (x & ws & E1 & E2). exists x, ws. split; [exact E1|].
          apply (sy_empty _ _ _ _ l0 c); assumption.
        * destruct (IH [] [] (words ++ [u :: word]) Rs (pa_none _ _ _ _)) as (x & ws & E1 & E2). exists x, ((u :: word) :: ws).
          split; [rewrite E1; now rewrite <- app_assoc|]. apply (sy_word _ _ _ _ l0 (u :: word) c); [exact P|discriminate|exact Sm|exact E2].
      + assert (P' : part toupper names special upper (l0 ++ [c]) ((if special c then word ++ [92] else word) ++ t)).
        { assert (X : (if special c then word ++ [92] else word) ++ t = word ++ ((if special c then [92] else []) ++ t)).
          { destruct (special c); [now rewrite <- app_assoc|reflexivity]. }
          rewrite X. clear X. assert (Nm : (if special c then [92] else []) ++ t <> mark).
          { destruct (special c); [discriminate|exact Q]. }
          clear - P S Nm. revert S Nm. generalize ((if special c then [92] else []) ++ t). intros y S Nm.
          induction P as [|d s l r Sd Nd P IHP]; cbn [app].
          - rewrite <- (app_nil_r y). apply pa_more; [exact S|exact Nm|apply pa_none].
          - rewrite <- app_assoc. now apply pa_more. }
        destruct (IH _ (l0 ++ [c]) words Rs P') as (x & ws & E1 & E2). exists x, ws. split; [exact E1|]. now rewrite <- app_assoc in E2.
  Qed.
  (** what a sequence says is one thing *)
  Lemma part_unique : forall l t, part toupper names special upper l t -> forall u, part toupper names special upper l u -> t = u.
  Proof.
    intros l t H. induction H as [|c t l r S N P IH]; intros u K; inversion K; subst; [reflexivity|].
    f_equal; [eapply shown_unique; eassumption|now apply IH].
  Qed.
  Lemma part_no_mark : forall l t m, part toupper names special upper l t -> In m l -> ~ sh m mark.
  Proof.
    intros l t m H. induction H as [|c t l r S N P IH]; intros I K; [destruct I|].
    destruct I as [->|I]; [|now apply IH]. apply N. eapply shown_unique; eassumption.
  Qed.
  Lemma split_unique : forall l m r l' m' r', (forall x, In x l -> ~ sh x mark) -> (forall x, In x l' -> ~ sh x mark) ->
    sh m mark -> sh m' mark -> l ++ [m] ++ r = l' ++ [m'] ++ r' -> l = l' /\ r = r'.
  Proof.
    induction l as [|x l IH]; intros m r [|y l'] m' r' N N' M M' E; cbn in E; injection E as E1 E2.
    - now subst.
    - subst. destruct (N' y (or_introl eq_refl) M).
    - subst. destruct (N m' (or_introl eq_refl) M').
    - destruct (IH m r l' m' r') as [-> ->]; auto; [intros z I; apply N; now right|intros z I; apply N'; now right|]. now subst.
  Qed.
  Lemma says_unique : forall l x, says toupper names special upper l x -> forall y, says toupper names special upper l y -> x = y.
  Proof.
    assert (In_m : forall (l : list Z) m r, In m (l ++ [m] ++ r)) by (intros; apply in_or_app; right; now left).
    intros l x H. induction H as [l t P|l t m r n ws P Nt M H IH|l m r n ws P M H IH]; intros y K.
    - destruct K as [l2 t2 P2|l2 t2 m2 r2 n2 ws2 P2 N2 M2 K2|l2 m2 r2 n2 ws2 P2 M2 K2].
      + f_equal. exact (part_unique _ _ P _ P2).
      + destruct (part_no_mark _ _ m2 P (In_m _ _ _) M2).
      + destruct (part_no_mark _ _ m2 P (In_m _ _ _) M2).
    - remember (l ++ [m] ++ r) as L eqn:EL. destruct K as [l2 t2 P2|l2 t2 m2 r2 n2 ws2 P2 N2 M2 K2|l2 m2 r2 n2 ws2 P2 M2 K2].
      + rewrite EL in P2. destruct (part_no_mark _ _ m P2 (In_m _ _ _) M).
      + apply split_unique in EL; try assumption; [|intros z I; exact (part_no_mark _ _ z P2 I)|intros z I; exact (part_no_mark _ _ z P I)].
        destruct EL as [-> ->]. specialize (IH _ K2). injection IH as <- <-. f_equal. f_equal. exact (part_unique _ _ P _ P2).
      + apply split_unique in EL; try assumption; [|intros z I; exact (part_no_mark _ _ z P2 I)|intros z I; exact (part_no_mark _ _ z P I)].
        destruct EL as [-> ->]. destruct Nt. exact (part_unique _ _ P _ P2).
    - remember (l ++ [m] ++ r) as L eqn:EL. destruct K as [l2 t2 P2|l2 t2 m2 r2 n2 ws2 P2 N2 M2 K2|l2 m2 r2 n2 ws2 P2 M2 K2].
      + rewrite EL in P2. destruct (part_no_mark _ _ m P2 (In_m _ _ _) M).
      + apply split_unique in EL; try assumption; [|intros z I; exact (part_no_mark _ _ z P2 I)|intros z I; exact (part_no_mark _ _ z P I)].
        destruct EL as [-> ->]. destruct N2. exact (part_unique _ _ P2 _ P).
      + apply split_unique in EL; try assumption; [|intros z I; exact (part_no_mark _ _ z P2 I)|intros z I; exact (part_no_mark _ _ z P I)].
        destruct EL as [-> ->]. now apply IH.
  Qed.
End Proofs.

(** ** The order of the results *)
Definition strict {T} (cmp : T -> T -> comparison) : Prop :=
  (forall x y, cmp x y = Eq <-> x = y) /\ (forall x y, cmp y x = CompOpp (cmp x y)) /\
  (forall x y z, cmp x y = Lt -> cmp y z = Lt -> cmp x z = Lt).
Lemma strict_Z : strict Z.compare.
Proof.
  split; [apply Z.compare_eq_iff|]. split; [intros; apply Z.compare_antisym|].
  intros x y z H1 H2. rewrite Z.compare_lt_iff in *. lia.
Qed.
Lemma strict_lex : forall T (cmp : T -> T -> comparison), strict cmp -> strict (cmp_lex cmp).
Proof.
  intros T cmp (E & A & Tr). split; [|split].
  - induction x as [|x l IH]; intros [|y m]; cbn [cmp_lex]; try (split; congruence).
    destruct (cmp x y) eqn:C.
    + apply E in C. subst. rewrite IH. split; congruence.
    + split; [discriminate|]. intro Q. injection Q as -> _. rewrite (proj2 (E y y) eq_refl) in C. discriminate.
    + split; [discriminate|]. intro Q. injection Q as -> _. rewrite (proj2 (E y y) eq_refl) in C. discriminate.
  - induction x as [|x l IH]; intros [|y m]; cbn [cmp_lex]; try reflexivity.
    rewrite (A x y). destruct (cmp x y); cbn [CompOpp]; auto.
  - induction x as [|x l IH]; intros [|y m] [|z n]; cbn [cmp_lex]; try congruence.
    destruct (cmp x y) eqn:C1; destruct (cmp y z) eqn:C2; intros H1 H2; try discriminate.
    + apply E in C1. apply E in C2. subst. rewrite (proj2 (E z z) eq_refl). eapply IH; eassumption.
    + apply E in C1. subst. now rewrite C2.
    + apply E in C2. subst. now rewrite C1.
    + now rewrite (Tr _ _ _ C1 C2).
Qed.
Lemma strict_str : strict cmp_str.
Proof. apply strict_lex, strict_Z. Qed.
Lemma strict_rule : strict cmp_rule.
Proof.
  destruct strict_str as (E & A & Tr). destruct (strict_lex _ _ strict_str) as (E' & A' & Tr').
  unfold cmp_rule. split; [|split].
  - intros [x l] [y m]. cbn [fst snd]. destruct (cmp_str x y) eqn:C.
    + apply E in C. subst. rewrite E'. split; congruence.
    + split; [discriminate|]. intro Q. injection Q as -> _. rewrite (proj2 (E y y) eq_refl) in C. discriminate.
    + split; [discriminate|]. intro Q. injection Q as -> _. rewrite (proj2 (E y y) eq_refl) in C. discriminate.
  - intros [x l] [y m]. cbn [fst snd]. rewrite (A x y). destruct (cmp_str x y); cbn [CompOpp]; auto.
  - intros [x l] [y m] [z n]. cbn [fst snd]. destruct (cmp_str x y) eqn:C1; destruct (cmp_str y z) eqn:C2; intros H1 H2; try discriminate.
    + apply E in C1. apply E in C2. subst. rewrite (proj2 (E z z) eq_refl). eapply Tr'; eassumption.
    + apply E in C1. subst. now rewrite C2.
    + apply E in C2. subst. now rewrite C1.
    + now rewrite (Tr _ _ _ C1 C2).
Qed.
Definition before (x y : rule) : Prop := cmp_rule x y = Lt.
Lemma insert_in : forall x l y, In y (rule_insert x l) <-> y = x \/ In y l.
Proof.
  destruct strict_rule as (E & _ & _). intros x l y. induction l as [|z l IH]; cbn [rule_insert].
  - cbn. intuition.
  - destruct (cmp_rule x z) eqn:C.
    + apply E in C. subst. cbn. intuition.
    + cbn. intuition.
    + cbn [In]. rewrite IH. intuition.
Qed.
Lemma insert_sorted : forall x l, StronglySorted before l -> StronglySorted before (rule_insert x l).
Proof.
  destruct strict_rule as (E & A & Tr). intros x l H. induction H as [|z l H IH F]; cbn [rule_insert].
  - repeat constructor.
  - destruct (cmp_rule x z) eqn:C.
    + now constructor.
    + constructor; [now constructor|]. constructor; [exact C|]. eapply Forall_impl; [|exact F]. intros y Hy. eapply Tr; eassumption.
    + constructor; [exact IH|]. apply Forall_forall. intros y I. apply insert_in in I. destruct I as [->|I].
      * unfold before. rewrite A, C. reflexivity.
      * rewrite Forall_forall in F. now apply F.
Qed.
Lemma sorted_same : forall l m, StronglySorted before l -> StronglySorted before m -> (forall x, In x l <-> In x m) -> l = m.
Proof.
  destruct strict_rule as (E & A & Tr).
  assert (Irr : forall x, ~ before x x) by (intros x B; unfold before in B; rewrite (proj2 (E x x) eq_refl) in B; discriminate).
  induction l as [|x l IH]; intros [|y m] S1 S2 Q.
  - reflexivity.
  - destruct (proj2 (Q y) (or_introl eq_refl)).
  - destruct (proj1 (Q x) (or_introl eq_refl)).
  - inversion S1 as [|? ? S1' F1]; inversion S2 as [|? ? S2' F2]; subst. rewrite Forall_forall in F1, F2.
    assert (x = y).
    { destruct (proj1 (Q x) (or_introl eq_refl)) as [H|H]; [now symmetry|].
      destruct (proj2 (Q y) (or_introl eq_refl)) as [K|K]; [exact K|].
      destruct (Irr x). eapply Tr; [apply F1; exact K|apply F2; exact H]. }
    subst y. f_equal. apply IH; try assumption. intro z. split; intro I.
    + destruct (proj1 (Q z) (or_intror I)) as [<-|J]; [destruct (Irr x (F1 _ I))|exact J].
    + destruct (proj2 (Q z) (or_intror I)) as [<-|J]; [destruct (Irr x (F2 _ I))|exact J].
Qed.
Lemma sorted_nodup : forall l, StronglySorted before l -> NoDup l.
Proof.
  destruct strict_rule as (E & _ & _). induction 1 as [|x l S IH F]; constructor; [|exact IH].
  intro I. rewrite Forall_forall in F. specialize (F x I). unfold before in F. rewrite (proj2 (E x x) eq_refl) in F. discriminate.
Qed.
Lemma final_in : forall fins n, final_weight n fins <> None <-> In n (map fst fins).
Proof.
  induction fins as [|[m w] fins IH]; intro n; cbn [final_weight map fst In].
  - split; [congruence|tauto].
  - destruct (Nat.eqb_spec m n) as [->|D]; [split; [now left|intros _; discriminate]|]. rewrite IH. split; [auto|intros [Q|Q]; [congruence|exact Q]].
Qed.

Section Results.
  Context (toupper : Z -> Z) (fins : list (nat * Z)) (a : alphabet) (special : Z -> bool) (upper : bool).
  Context (Pr : proper toupper special).
  Local Notation sy := (says toupper (slexicinv a) special upper).
  Lemma loop_says : forall st results, Forall (fun s => in_range (slexicinv a) (map fst (v_seq s))) st -> StronglySorted before results ->
    exists R, lrx_loop toupper fins a special upper st results = Ok R /\ StronglySorted before R /\
      forall x, In x R <-> In x results \/ exists s, In s st /\ In (v_where s) (map fst fins) /\ sy (map fst (v_seq s)) x.
  Proof.
    induction st as [|s st IH]; intros results F S; cbn [lrx_loop].
    - exists results. split; [reflexivity|]. split; [exact S|]. intro x. split; [auto|intros [I|(s & [] & _)]; exact I].
    - inversion F as [|? ? Fs Fst]; subst. pose proof (final_in fins (v_where s)) as Fi.
      destruct (final_weight (v_where s) fins) as [w|].
      + destruct (walk_says toupper a special upper Pr (v_seq s) [] [] [] Fs (pa_none _ _ _ _)) as (x & ws & E & Sy).
        rewrite E. cbn [obind app]. cbn [app] in Sy.
        destruct (IH (rule_insert (x, ws) results) Fst (insert_sorted _ _ S)) as (R & ER & SR & M).
        exists R. split; [exact ER|]. split; [exact SR|]. intro y. rewrite M, insert_in. split.
        * intros [[->|I]|(s' & I & Rest)]; [right; exists s|now left|right; exists s'; split; [now right|exact Rest]].
          split; [now left|]. split; [apply Fi; discriminate|exact Sy].
        * intros [I|(s' & [<-|I] & Fin & Sy')]; [auto| |right; now exists s'].
          left. left. exact (says_unique _ _ _ _ _ _ Sy' _ Sy).
      + destruct (IH results Fst S) as (R & ER & SR & M). exists R. split; [exact ER|]. split; [exact SR|]. intro y. rewrite M. split.
        * intros [I|(s' & I & Rest)]; [now left|right; exists s'; split; [now right|exact Rest]].
        * intros [I|(s' & [<-|I] & Fin & Sy')]; [auto| |right; now exists s']. exfalso. apply Fi in Fin. now apply Fin.
  Qed.
  (** C91: what is reported is what the final states say, and each of them once *)
  Theorem C91_rules : forall st, Forall (fun s => in_range (slexicinv a) (map fst (v_seq s))) st ->
    exists R, filterFinalsLRX toupper fins a special upper st = Ok R /\ NoDup R /\
      forall x, In x R <-> exists s, In s st /\ In (v_where s) (map fst fins) /\ sy (map fst (v_seq s)) x.
  Proof.
    intros st F. destruct (loop_says st [] F (SSorted_nil _)) as (R & E & S & M). exists R. split; [exact E|].
    split; [now apply sorted_nodup|]. intro x. rewrite M. cbn [In]. tauto.
  Qed.
  (** C91: a final state says exactly one thing *)
  Theorem C91_one : forall seq : list (Z * Z), in_range (slexicinv a) (map fst seq) -> exists! x, sy (map fst seq) x.
  Proof.
    intros seq H. destruct (walk_says toupper a special upper Pr seq [] [] [] H (pa_none _ _ _ _)) as (x & ws & _ & Sy).
    exists (x, ws). split; [exact Sy|]. intros y K. exact (says_unique _ _ _ _ _ _ Sy _ K).
  Qed.
  (** C91: neither the order of the states nor repeating one matters *)
  Theorem C91_order : forall st st', Forall (fun s => in_range (slexicinv a) (map fst (v_seq s))) st ->
    (forall s, In s st <-> In s st') ->
    filterFinalsLRX toupper fins a special upper st = filterFinalsLRX toupper fins a special upper st'.
  Proof.
    intros st st' F Q.
    assert (F' : Forall (fun s => in_range (slexicinv a) (map fst (v_seq s))) st').
    { rewrite Forall_forall in *. intros s I. apply F, Q, I. }
    destruct (loop_says st [] F (SSorted_nil _)) as (R & E & S & M).
    destruct (loop_says st' [] F' (SSorted_nil _)) as (R' & E' & S' & M').
    unfold filterFinalsLRX. rewrite E, E'. f_equal. apply sorted_same; try assumption. intro x. rewrite M, M'.
    split; (intros [[]|(s & I & Rest)]; right; exists s; (split; [now apply Q|exact Rest])).
  Qed.
End Results.

(** ** Cases *)
Definition ex_alphabet : alphabet := mkAlphabet [([60; 36; 62], -1); ([60; 110; 62], -2)] [[60; 36; 62]; [60; 110; 62]] [] [].
Definition ex_special (c : Z) : bool := (c =? 91) || (c =? 93).
Definition ex_up (c : Z) : Z := if (97 <=? c) && (c <=? 122) then c - 32 else c.
Definition ex_path (n : nat) (l : list Z) : vns (W:=Z) := mkV n (map (fun c => (c, 0)) l) false.
Example ex_proper : proper ex_up ex_special.
Proof.
  split; intros c H.
  - unfold ex_special. destruct (Z.eqb_spec c 91), (Z.eqb_spec c 93); (lia || reflexivity).
  - unfold ex_up. destruct (Z.leb_spec 97 c), (Z.leb_spec c 122); cbn [andb]; lia.
Qed.
(** [a] [[] <n> <$> <$> b <$> 1: two words, the empty one is not counted; the state 8 is not
    final, and two states that say the same are reported once *)
Example ex_rules : filterFinalsLRX ex_up [(7%nat, 0)] ex_alphabet ex_special false
    [ex_path 7 [98; -1; 50]; ex_path 8 [98; -1; 51]; ex_path 7 [97; 91; -2; -1; -1; 98; -1; 49]; ex_path 7 [98; -1; 0; 50]] =
  Ok [([49], [[97; 92; 91; 60; 110; 62]; [98]]); ([50], [[98]])].
Proof. reflexivity. Qed.
(** in upper case, the name of the rule too; tags stay *)
Example ex_upper : filterFinalsLRX ex_up [(7%nat, 0)] ex_alphabet ex_special true
    [ex_path 7 [98; -2; -1; 120]] = Ok [([88], [[66; 60; 110; 62]])].
Proof. reflexivity. Qed.
Example ex_says : says ex_up [[60; 36; 62]; [60; 110; 62]] ex_special false [-1; 98; -1; 49] ([49], [[98]]).
Proof.
  apply (sy_empty _ _ _ _ [] (-1) [98; -1; 49]); [apply pa_none|now apply (sh_tag _ _ _ _ 0)|].
  apply (sy_word _ _ _ _ [98] [98] (-1) [49]); [|discriminate|now apply (sh_tag _ _ _ _ 0)|].
  - apply (pa_more _ _ _ _ 98 [98] [] []); [exact (sh_char ex_up [[60; 36; 62]; [60; 110; 62]] ex_special false 98 eq_refl)|discriminate|apply pa_none].
  - apply sy_name. apply (pa_more _ _ _ _ 49 [49] [] []); [exact (sh_char ex_up [[60; 36; 62]; [60; 110; 62]] ex_special false 49 eq_refl)|discriminate|apply pa_none].
Qed.
Print Assumptions C91_rules.
Print Assumptions C91_one.
Print Assumptions C91_order.
