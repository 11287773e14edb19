(** Proofs about what lt-proc does for a command line. *)
From Verif Require Import Base GenerationModel CliModel CliSpec CliProofs.
From Coq Require String Ascii.
Import String.StringSyntax.

(** the options of one command together *)
Definition main7 (a b g e p t s : bool) : option (Z * gmode) := main_of a b false false g e p t false s.
Lemma main_of_7 : forall a b o O g e p x t s, main_of a b o O g e p x t s = main7 a (b || o || O) g e p (x || t) s.
Proof. intros [] [] [] [] [] [] [] [] [] []; reflexivity. Qed.

(** digits *)
Lemma decimal_digits : forall l n, decimal l n -> forall r k, digits (l ++ r) k = digits r (k * 10 ^ Z.of_nat (length l) + n).
Proof.
  intros l n D. induction D as [d R|l n d D IH R]; intros r k.
  - cbn [app digits length]. replace ((48 <=? 48 + d) && (48 + d <=? 57)) with true by lia.
    f_equal. change (10 ^ Z.of_nat 1) with 10. lia.
  - rewrite <- app_assoc, IH. cbn [app digits]. replace ((48 <=? 48 + d) && (48 + d <=? 57)) with true by lia.
    f_equal. rewrite app_length. cbn [length]. replace (Z.of_nat (length l + 1)) with (Z.succ (Z.of_nat (length l))) by lia.
    rewrite Z.pow_succ_r by lia. ring.
Qed.
Lemma decimal_head : forall l n, decimal l n -> exists d r, l = 48 + d :: r /\ 0 <= d < 10.
Proof.
  intros l n D. induction D as [d R|l n d D [e [r [-> E]]] R]; [exists d, []; auto|].
  exists e, (r ++ [48 + d]). auto.
Qed.
Lemma digit_atoi : forall d r, 0 <= d < 10 ->
  atoi (48 + d :: r)
  = let n := digits (48 + d :: r) 0 in if (- 2 ^ 31 <=? n) && (n <? 2 ^ 31) then Ok n else UB.
Proof.
  intros d r H.
  assert (E : d = 0 \/ d = 1 \/ d = 2 \/ d = 3 \/ d = 4 \/ d = 5 \/ d = 6 \/ d = 7 \/ d = 8 \/ d = 9) by lia.
  destruct E as [E|[E|[E|[E|[E|[E|[E|[E|[E|E]]]]]]]]]; subst d; reflexivity.
Qed.
Lemma decimal_atoi : forall l n, decimal l n -> 1 <= n < 2 ^ 31 -> atoi l = Ok n.
Proof.
  intros l n D R.
  pose proof (decimal_digits l n D [] 0) as E. rewrite app_nil_r in E. cbn [digits] in E.
  destruct (decimal_head l n D) as [d [r [L Rd]]]. rewrite L, (digit_atoi d r Rd), <- L. cbv zeta.
  rewrite E. replace (0 * 10 ^ Z.of_nat (length l) + n) with n by lia.
  replace ((- 2 ^ 31 <=? n) && (n <? 2 ^ 31)) with true; [reflexivity|]. symmetry. apply andb_true_intro. split; lia.
Qed.
Lemma values_unique : forall o ws l, wished_values o ws l -> forall k, wished_values o ws k -> k = l.
Proof.
  intros o ws l H. induction H as [|v ws l H IH|w ws l N H IH]; intros k G.
  - now inversion G.
  - inversion G as [|v' ws' l' G'|w' ws' l' N' G']; subst; [now rewrite (IH _ G')|]. exfalso. now apply (N' v).
  - inversion G as [|v' ws' l' G'|w' ws' l' N' G']; subst; [exfalso; now apply (N v')|now apply IH].
Qed.
Lemma limit_ok : forall os t ws o x, holds os ws t -> In o os -> limited o ws x -> limit (long o) t = Ok x.
Proof.
  intros os t ws o x (_ & HV & _) I L. specialize (HV o I). unfold limit. destruct L as [L|l v n L D R].
  - now rewrite (values_unique _ _ _ L _ HV).
  - rewrite (values_unique _ _ _ L _ HV). destruct (l ++ [v]) as [|y q] eqn:E; [destruct l; discriminate E|].
    rewrite <- E, last_last, (decimal_atoi v n D R). cbn [obind]. now replace (n <? 1) with false by lia.
Qed.

(** the commands of a line *)
Section Asked.
  Context (ws : list wish) (t : taken).
  Hypothesis H : holds proc_opts ws t.
  Lemma on_iff : forall o, In o proc_opts -> is_set (long o) t = true <-> In (Flag o) ws.
  Proof. exact (proj1 H). Qed.
  Definition cb (c : command) : bool :=
    let on n := is_set n t in
    match c with
    | Analysis => on (str "analysis")
    | Transfer => on (str "bilingual") || on (str "surf-bilingual") || on (str "surf-bilingual-keep")
    | Generation => on (str "generation")
    | Decomposition => on (str "decompose-nouns")
    | Postgeneration => on (str "post-generation")
    | Transliteration => on (str "inter-generation") || on (str "transliteration")
    | Annotation => on (str "sao")
    end.
  Lemma asked_iff : forall c, asked ws c <-> cb c = true.
  Proof.
    intro c. split.
    - intros [o [I A]]. unfold cb. rewrite ?orb_true_iff.
      destruct A; cbv zeta; rewrite ?orb_true_iff;
        match goal with I : In (Flag ?o) ws |- _ => apply (on_iff o) in I; [change (long o) with (long o) in I; unfold long, B in I; auto|] end;
        cbn [proc_opts In]; auto 40.
    - assert (Q : forall o c, In o proc_opts -> asks o c -> is_set (long o) t = true -> asked ws c).
      { intros o d I A S. exists o. split; [now apply on_iff|exact A]. }
      unfold cb. cbv zeta. destruct c; rewrite ?orb_true_iff; intro E.
      + apply (Q (B 97 "analysis")); [cbn; auto 40|constructor|exact E].
      + destruct E as [[E|E]|E];
          [apply (Q (B 98 "bilingual"))|apply (Q (B 111 "surf-bilingual"))|apply (Q (B 79 "surf-bilingual-keep"))];
          first [exact E|apply as_b|apply as_o|apply as_O|apply as_x|apply as_t|cbn; auto 40].
      + apply (Q (B 103 "generation")); [cbn; auto 40|constructor|exact E].
      + apply (Q (B 101 "decompose-nouns")); [cbn; auto 40|constructor|exact E].
      + apply (Q (B 112 "post-generation")); [cbn; auto 40|constructor|exact E].
      + destruct E as [E|E]; [apply (Q (B 120 "inter-generation"))|apply (Q (B 116 "transliteration"))];
          first [exact E|apply as_b|apply as_o|apply as_O|apply as_x|apply as_t|cbn; auto 40].
      + apply (Q (B 115 "sao")); [cbn; auto 40|constructor|exact E].
  Qed.

  Lemma choose_7 :
    choose t =
    let on n := is_set n t in
    match main7 (cb Analysis) (cb Transfer) (cb Generation) (cb Decomposition) (cb Postgeneration)
            (cb Transliteration) (cb Annotation) with
    | None => None
    | Some x => Some (kind_of (on (str "debugged-gen")) (on (str "tagged-gen")) (on (str "tagged-nm-gen"))
                        (on (str "non-marked-gen")) (on (str "careful-case")) x)
    end.
  Proof. unfold choose. cbv zeta. rewrite main_of_7. reflexivity. Qed.
  Lemma kind_strongest :
    let on n := is_set n t in
    exists v, strongest ws kinds v /\ forall x,
      kind_of (on (str "debugged-gen")) (on (str "tagged-gen")) (on (str "tagged-nm-gen"))
        (on (str "non-marked-gen")) (on (str "careful-case")) x
      = ((match v with None => fst x | Some _ => if fst x =? 0 then 103 else fst x end), or_mode v (snd x)).
  Proof.
    cbv zeta.
    assert (Y : forall c n m r v, In (B c n) proc_opts ->
              strongest ws r v ->
              strongest ws ((B c n, m) :: r) (if is_set (str n) t then Some m else v)).
    { intros c n m r v I S. pose proof (on_iff (B c n) I) as E. unfold B, long in E.
      destruct (is_set (str n) t); [apply sg_this; now apply E|apply sg_next; [|exact S]].
      intro F. apply E in F. discriminate F. }
    eexists. split.
    - unfold kinds. do 5 (apply Y; [cbn; auto 40|]). apply sg_none.
    - intros [z m0]. unfold kind_of.
      destruct (is_set (str "careful-case") t), (is_set (str "non-marked-gen") t), (is_set (str "tagged-nm-gen") t),
        (is_set (str "tagged-gen") t), (is_set (str "debugged-gen") t); cbn [fst snd or_mode];
        destruct (z =? 0) eqn:E; cbn [fst snd]; rewrite ?E; reflexivity.
  Qed.
End Asked.

Definition odd_pair (f : command -> bool) : Prop :=
  exists c d, f c = true /\ f d = true /\ c <> d /\
    ~ (c = Transfer /\ d = Generation) /\ ~ (c = Generation /\ d = Transfer).
Definition main_f (f : command -> bool) : option (Z * gmode) :=
  main7 (f Analysis) (f Transfer) (f Generation) (f Decomposition) (f Postgeneration) (f Transliteration) (f Annotation).
Lemma odd_none : forall f, odd_pair f -> main_f f = None.
Proof.
  intros f (c & d & Fc & Fd & N & N1 & N2). unfold main_f.
  destruct c, d; try (exfalso; congruence); try (exfalso; tauto); rewrite Fc, Fd;
    repeat match goal with |- context [f ?c] => destruct (f c) end; reflexivity.
Qed.
(** the nine ways that are left *)
Inductive one_way (f : command -> bool) : Z * gmode -> Prop :=
| ow_none : (forall c, f c = false) -> one_way f (0, gm_unknown)
| ow_transfer : f Transfer = true -> f Generation = false -> one_way f (98, gm_unknown)
| ow_both : f Transfer = true -> f Generation = true -> one_way f (98, gm_bilgen)
| ow_generation : f Transfer = false -> f Generation = true -> one_way f (103, gm_unknown)
| ow_analysis : f Analysis = true -> one_way f (97, gm_unknown)
| ow_decomposition : f Decomposition = true -> one_way f (101, gm_unknown)
| ow_postgeneration : f Postgeneration = true -> one_way f (112, gm_unknown)
| ow_transliteration : f Transliteration = true -> one_way f (116, gm_unknown)
| ow_annotation : f Annotation = true -> one_way f (115, gm_unknown).
Lemma even_some : forall f, ~ odd_pair f -> exists x, main_f f = Some x /\ one_way f x.
Proof.
  intros f N.
  assert (D : forall c d, c <> d -> ~ (c = Transfer /\ d = Generation) -> ~ (c = Generation /\ d = Transfer) ->
              f c = true -> f d = true -> False).
  { intros c d X Y Z A E. apply N. exists c, d. auto. }
  unfold main_f.
  destruct (f Analysis) eqn:Ea, (f Transfer) eqn:Et, (f Generation) eqn:Eg, (f Decomposition) eqn:Ed,
    (f Postgeneration) eqn:Ep, (f Transliteration) eqn:El, (f Annotation) eqn:Es;
    try (exfalso;
         first [apply (D Analysis Transfer); [discriminate|intros [X Y]; discriminate X|intros [X Y]; discriminate X|assumption|assumption]
               |match goal with
                | A : f ?c = true, E : f ?d = true |- False =>
                    first [apply (D c d); [discriminate|intros [X Y]; first [discriminate X|discriminate Y]
                                          |intros [X Y]; first [discriminate X|discriminate Y]|exact A|exact E]]
                end]);
    (eexists; split; [reflexivity|]).
  all: first [apply ow_none; intros []; assumption|constructor; assumption].
Qed.
