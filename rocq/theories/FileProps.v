(** Properties C11-C13: compiled dictionary files. *)
From Coq Require Import Sorted.
From Verif Require Import Base CompressionModel CompressionProofs StringCodecProofs WeightCodecProofs
  SerialiserModel AlphabetModel AlphabetProofs AlphabetProps FileModel FileProofs.

(** A transducer fits the format ([file_ok], FileProofs.v): at least one state; initial
    state, final states, numbers of states, finals and arcs below 2^30; finals in
    increasing order and arcs of a state in order of tag, as maps and multimaps keep
    them; targets are states; tags between -bias and 2^30 - 2 bias; finite weights are
    doubles.  A name fits ([name_ok]) when it is shorter than 2^30 units. *)

(** What the weight format gives back for a weight. *)
Definition delivered (w w' : weight) : Prop :=
  exists bs, long_multibyte_write w = Ok bs /\ forall rest, long_multibyte_read (bs ++ rest) = (w', rest).
(** No weight anywhere differs from the default. *)
Definition no_weights (t : ftrans) : Prop :=
  (forall s w, In (s, w) (f_finals t) -> exists e, w = WFin 0 e)
  /\ (forall l a d w, In l (f_trans t) -> In (a, (d, w)) l -> exists e, w = WFin 0 e).
(** [t'] is [t] read back: same states, finals and arcs in the same order; weights as the
    format gives them, or all zero if [t] has none. *)
Definition weight_back (t : ftrans) (w w' : weight) : Prop :=
  (no_weights t /\ w' = WFin 0 0) \/ (~ no_weights t /\ delivered w w').
Definition read_back (t t' : ftrans) : Prop :=
  f_initial t' = f_initial t
  /\ Forall2 (fun f g => fst g = fst f /\ weight_back t (snd f) (snd g)) (f_finals t) (f_finals t')
  /\ Forall2 (Forall2 (fun a b => fst b = fst a /\ fst (snd b) = fst (snd a)
                                  /\ weight_back t (snd (snd a)) (snd (snd b))))
       (f_trans t) (f_trans t').

Lemma nondefault_false : forall w, nondefault w = false <-> exists e, w = WFin 0 e.
Proof.
  intros [m e| |]; cbn; [|split; [discriminate|intros [? ?]; discriminate]..].
  destruct (Z.eqb_spec m 0) as [->|]; cbn; split; eauto; [discriminate|]. intros [e' E]. congruence.
Qed.
Lemma weighted_false : forall t, weighted t = false <-> no_weights t.
Proof.
  intros t. unfold weighted, no_weights. rewrite orb_false_iff. split.
  - intros [H1 H2]. split.
    + intros s w Hin. apply nondefault_false. destruct (nondefault w) eqn:E; [|reflexivity].
      rewrite <- H1. symmetry. apply existsb_exists. exists (s, w). auto.
    + intros l a d w Hl Hin. apply nondefault_false. destruct (nondefault w) eqn:E; [|reflexivity].
      rewrite <- H2. symmetry. apply existsb_exists. exists l. split; [exact Hl|].
      apply existsb_exists. exists (a, (d, w)). auto.
  - intros [H1 H2]. split.
    + match goal with |- ?x = false => destruct x eqn:E end; [|reflexivity]. apply existsb_exists in E as ([s w] & Hin & E).
      apply H1, nondefault_false in Hin. cbn in E. congruence.
    + match goal with |- ?x = false => destruct x eqn:E end; [|reflexivity]. apply existsb_exists in E as (l & Hl & E).
      apply existsb_exists in E as ([a [d w]] & Hin & E). apply (H2 l a d w Hl), nondefault_false in Hin. cbn in E. congruence.
Qed.

Lemma weight_back_out : forall t w, wt_ok w -> weight_back t w (wt_out (weighted t) w).
Proof.
  intros t w Hw. unfold weight_back. destruct (weighted t) eqn:E.
  - right. split; [rewrite <- weighted_false; congruence|].
    destruct (weight_rt true w Hw) as (bs & H1 & _ & H2). exists bs. split; [exact H1|].
    intros rest. apply (H2 (WFin 0 0)). discriminate.
  - left. split; [now apply weighted_false|reflexivity].
Qed.
Lemma Forall2_map : forall {A} (P : A -> A -> Prop) (f : A -> A) l, (forall x, In x l -> P x (f x)) -> Forall2 P l (map f l).
Proof. intros A P f l. induction l as [|x l IH]; intros H; constructor; [apply H; now left|apply IH; intros; apply H; now right]. Qed.
Lemma file_out_back : forall dec t, file_ok dec t -> read_back t (file_out t).
Proof.
  intros dec t F. destruct F as [_ _ _ _ _ _ H7 H8]. split; [reflexivity|]. split; cbn [file_out f_finals f_trans].
  - apply Forall2_map. intros [s w] Hin. cbn. split; [reflexivity|]. apply weight_back_out. now apply H7 in Hin.
  - apply Forall2_map. intros l Hl. apply Forall2_map. intros [a [d w]] Hin. cbn. split; [reflexivity|]. split; [reflexivity|].
    apply weight_back_out. apply H8 in Hl as (_ & _ & Hl). now apply Hl in Hin.
Qed.

(** * C11 *)
Theorem C11_roundtrip : forall bias t, file_ok bias t ->
  exists bs, transducer_write bias t = Ok bs
  /\ forall rest, exists t', transducer_read bias (bs ++ rest) = Ok (t', rest) /\ read_back t t'.
Proof.
  intros bias t F. destruct (transducer_rt bias t F) as (bs & E & _ & R). exists bs. split; [exact E|].
  intros rest. exists (file_out t). split; [apply R|]. now apply (file_out_back bias).
Qed.

(** Without weights the transducer comes back exactly. *)
Theorem C11_unweighted : forall bias t rest, file_ok bias t ->
  (forall s w, In (s, w) (f_finals t) -> w = WFin 0 0) ->
  (forall l a d w, In l (f_trans t) -> In (a, (d, w)) l -> w = WFin 0 0) ->
  exists bs, transducer_write bias t = Ok bs /\ transducer_read bias (bs ++ rest) = Ok (t, rest).
Proof.
  intros bias t rest F H1 H2. destruct (transducer_rt bias t F) as (bs & E & _ & R). exists bs. split; [exact E|].
  rewrite R. assert (W : weighted t = false).
  { apply weighted_false. split; [intros s w Hin|intros l a d w Hl Hin]; exists 0; eauto. }
  unfold file_out. rewrite W. destruct t as [i f ts]. cbn [f_initial f_finals f_trans] in *. do 2 f_equal. f_equal.
  - unfold fins_out. rewrite <- (map_id f) at 2. apply map_ext_in. intros [s w] Hin. cbn. now rewrite (H1 s w Hin).
  - rewrite <- (map_id ts) at 2. apply map_ext_in. intros l Hl. unfold arcs_out. rewrite <- (map_id l) at 2.
    apply map_ext_in. intros [a [d w]] Hin. cbn. now rewrite (H2 l a d w Hl Hin).
Qed.

(** A loop, a backward arc, two finals, tags written with a bias (negative tags). *)
Definition c11_t : ftrans :=
  mkF 0 [(1%nat, WFin 3 0); (2%nat, WFin 0 0)]
    [[(-2, (1%nat, WFin 0 0)); (5, (2%nat, WFin (-1) (-1)))];
     [(5, (1%nat, WFin 0 0)); (700, (0%nat, WPInf))]; []].
Example C11_example : file_ok 3 c11_t /\ exists bs, transducer_write 3 c11_t = Ok bs
  /\ transducer_read 3 (bs ++ [8; 8]) = Ok (mkF 0 [(1%nat, WFin 805306368 (-28)); (2%nat, WFin 0 (-30))]
    [[(-2, (1%nat, WFin 0 (-30))); (5, (2%nat, WFin (-536870912) (-30)))];
     [(5, (1%nat, WFin 0 (-30))); (700, (0%nat, WPInf))]; []], [8; 8]).
Proof.
  split.
  - split; cbn; try lia; try discriminate.
    + repeat constructor.
    + intros s w [E|[E|[]]]; injection E as <- <-; split; try lia; cbn; unfold is_double; cbn; lia.
    + intros l [<-|[<-|[<-|[]]]]; (split; [repeat constructor; unfold arc_le; cbn; lia|]; split; [cbn; lia|]);
      cbn; intros tag dst w H; repeat destruct H as [H|H]; try contradiction; injection H as <- <- <-;
      do 3 (split; [lia|]); unfold wt_ok, is_double; cbn; auto; lia.
  - eexists. split; [vm_compute; reflexivity|]. vm_compute. reflexivity.
Qed.

(** * C12 *)
(** The alphabet [a] fits: as in C09. *)
Definition alphabet_fits (a : alphabet) : Prop :=
  let n := Z.of_nat (length (slexicinv a)) in
  n < 2 ^ 30 /\ Z.of_nat (length (spairinv a)) < 2 ^ 30
  /\ (forall s, In s (slexicinv a) -> exists body, s = [60] ++ body ++ [62]
        /\ Forall (fun u => 0 <= u < 65536) body /\ Z.of_nat (length body) < 2 ^ 30)
  /\ (forall x y, In (x, y) (spairinv a) -> - n <= x < 2 ^ 30 - n /\ - n <= y < 2 ^ 30 - n).

Lemma fits_ok : forall a, alphabet_fits a -> alph_ok a.
Proof.
  intros a (H1 & H2 & H3 & H4). split; [exact H1|]. split; [exact H2|]. split.
  - apply Forall_forall. exact H3.
  - apply Forall_forall. intros [x y] Hin. exact (H4 x y Hin).
Qed.

(** The letters of a string are the code points of its UTF-16 text. *)
Theorem C12_roundtrip : forall ops s l, let a := after ops in
  alphabet_fits a -> name_ok s -> NoDup (map fst l) -> Z.of_nat (length l) < 2 ^ 30 ->
  (forall name t, In (name, t) l -> name_ok name /\ file_ok 0 t) ->
  exists bs, writeTransducerSet s a l = Ok bs
  /\ forall rest, exists letters l', readTransducerSet (bs ++ rest) = Ok (letters, a, l', rest)
       /\ (forall c, In c letters <-> In c (ustring_to_vec32 s))
       /\ Forall2 (fun x y => fst y = fst x /\ read_back (snd x) (snd y)) l l'.
Proof.
  intros ops s l a A Hs ND Hl H.
  destruct (dict_rt s a l Hs (proj1 (after_inv ops)) (fits_ok a A) ND Hl H) as (bs & E & R).
  exists bs. split; [exact E|]. intros rest. eexists. eexists. split; [apply R|]. split.
  - intros c. rewrite insert_all_in. cbn. tauto.
  - apply Forall2_map. intros [name t] Hin. cbn. split; [reflexivity|].
    apply (file_out_back 0). now apply H in Hin.
Qed.

(** Whatever bytes the run-time reader accepts, the tool reader accepts them too, with
    the same letters, alphabet and section names, and the graphs agree: the initial and
    final states are the same, and from node [i] on input [c] the run-time graph offers,
    in the same order, exactly the arcs of state [i] whose tag decodes to [c : o]. *)
Definition graph_agrees (a : alphabet) (t : ftrans) (te : texe) : Prop :=
  te_initial te = f_initial t /\ te_finals te = f_finals t
  /\ forall i c o dst w,
       let arcs := nth i (f_trans t) [] in
       let sel := filter (fun arc : farc => match decode (fst arc) a with Ok (x, _) => x =? c | _ => false end) arcs in
       let found := node_find c (nth i (te_nodes te) []) in
       length found = length sel
       /\ forall k, nth_error found k = Some (o, (dst, w)) <->
            exists tag, nth_error sel k = Some (tag, (dst, w)) /\ decode tag a = Ok (c, o).

Lemma arcs_with_sel : forall a c (l : list farc),
  let sel := filter (fun arc : farc => match decode (fst arc) a with Ok (x, _) => x =? c | _ => false end) l in
  length (arcs_with a c l) = length sel
  /\ forall o dst w k, nth_error (arcs_with a c l) k = Some (o, (dst, w)) <->
       exists tag, nth_error sel k = Some (tag, (dst, w)) /\ decode tag a = Ok (c, o).
Proof.
  intros a c. induction l as [|[tag [d v]] l IH].
  - cbn. split; [reflexivity|]. intros o dst w [|k]; split; try discriminate; intros (? & ? & _); discriminate.
  - destruct IH as [IH1 IH2]. cbv zeta in *. unfold arcs_with in *. cbn [flat_map filter fst snd].
    destruct (decode tag a) as [[x o']| | | |] eqn:E; try (split; [exact IH1|exact IH2]).
    destruct (Z.eqb_spec x c) as [->|]; [|split; [exact IH1|exact IH2]].
    cbn [app length]. split; [now rewrite IH1|]. intros o dst w [|k]; cbn [nth_error]; [|apply IH2].
    split.
    + intros H. injection H as <- <- <-. eauto.
    + intros (tag' & H & Ed). injection H as <- <- <-. rewrite E in Ed. injection Ed as <-. reflexivity.
Qed.

Lemma same_graph_agrees : forall a t te, same_graph a t te -> graph_agrees a t te.
Proof.
  intros a t te (H1 & H2 & H3 & _). split; [exact H1|]. split; [exact H2|]. intros i c o dst w. cbv zeta.
  rewrite H3. destruct (arcs_with_sel a c (nth i (f_trans t) [])) as [A B]. split; [exact A|]. intros k. apply B.
Qed.

Theorem C12_runtime_agrees : forall inp letters a tes r, Forall (fun b => 0 <= b < 256) inp ->
  readTransducerSet_exe inp = Ok (letters, a, tes, r) ->
  exists ts, readTransducerSet inp = Ok (letters, a, ts, r)
    /\ Forall2 (fun x y => fst x = fst y /\ graph_agrees a (snd x) (snd y)) ts tes.
Proof.
  intros inp letters a tes r B H. destruct (dict_agree inp letters a tes r B H) as (ts & E & A).
  exists ts. split; [exact E|]. clear - A. induction A as [|x y l m [H1 H2] _ IH]; constructor; auto.
  split; [exact H1|]. now apply same_graph_agrees.
Qed.

(** And the run-time reader does accept what was written, if the transducers use tags of
    the alphabet and their final states exist. *)
Theorem C12_runtime_loads : forall ops s l rest, let a := after ops in
  alphabet_fits a -> name_ok s -> NoDup (map fst l) -> Z.of_nat (length l) < 2 ^ 30 ->
  (forall name t, In (name, t) l -> name_ok name /\ file_ok 0 t
     /\ (forall f w, In (f, w) (f_finals t) -> (f < length (f_trans t))%nat)
     /\ (forall q tag dw, In q (f_trans t) -> In (tag, dw) q -> 0 <= tag < Z.of_nat (length (spairinv a)))) ->
  Forall (fun b => 0 <= b < 256) rest ->
  exists bs letters l' tes, writeTransducerSet s a l = Ok bs
  /\ readTransducerSet (bs ++ rest) = Ok (letters, a, l', rest)
  /\ readTransducerSet_exe (bs ++ rest) = Ok (letters, a, tes, rest)
  /\ Forall2 (fun x y => fst x = fst y /\ graph_agrees a (snd x) (snd y)) l' tes.
Proof.
  intros ops s l rest a A Hs ND Hl H Br.
  assert (H0 : forall name t, In (name, t) l -> name_ok name /\ file_ok 0 t) by (intros name t Hin; now apply H in Hin).
  destruct (dict_rt s a l Hs (proj1 (after_inv ops)) (fits_ok a A) ND Hl H0) as (bs & E & R).
  destruct (dict_exe_rt s a l Hs (proj1 (after_inv ops)) (fits_ok a A) ND Hl H) as (bs' & E' & R').
  rewrite E in E'. apply Ok_inj in E'. subst bs'.
  destruct (R' rest Br) as (tes & Et & Ag). eexists bs, _, _, tes. split; [exact E|]. split; [apply R|]. split; [exact Et|].
  clear - Ag. induction Ag as [|x y m n [H1 H2] _ IH]; constructor; auto. split; [exact H1|]. now apply same_graph_agrees.
Qed.

(** Tools that rewrite a dictionary pass the letters as a set of code points.  Letters of
    the Basic Multilingual Plane survive. *)
Theorem C12_letters_bmp_partial : forall ops letters l, let a := after ops in
  alphabet_fits a -> StronglySorted Z.lt letters ->
  (forall c, In c letters -> 0 <= c < 0xD800 \/ 0xE000 <= c < 0x10000) ->
  Z.of_nat (length letters) < 2 ^ 30 -> NoDup (map fst l) -> Z.of_nat (length l) < 2 ^ 30 ->
  (forall name t, In (name, t) l -> name_ok name /\ file_ok 0 t) ->
  exists bs, writeTransducerSet_letters letters a l = Ok bs
  /\ forall rest, exists l', readTransducerSet (bs ++ rest) = Ok (letters, a, l', rest).
Proof.
  intros ops letters l a A S Hr Hn ND Hl H. unfold writeTransducerSet_letters.
  assert (Em : map (fun c => c mod 2 ^ 16) letters = letters).
  { rewrite <- (map_id letters) at 2. apply map_ext_in. intros c Hc. apply Hr in Hc.
    apply Z.mod_small. change (2 ^ 16) with 65536. lia. }
  rewrite Em.
  assert (Ev : ustring_to_vec32 letters = letters).
  { clear - Hr. induction letters as [|c ls IH]; [reflexivity|].
    assert (Hc := Hr c (or_introl eq_refl)). cbn [ustring_to_vec32].
    rewrite is_lead_iff by (unfold is_unit; lia).
    replace ((55296 <=? c) && (c <? 56320)) with false by lia.
    rewrite IH; [reflexivity|]. intros d Hd. apply Hr. now right. }
  assert (Hs : name_ok letters).
  { split; [|exact Hn]. apply Forall_forall. intros c Hc. apply Hr in Hc. unfold is_unit. lia. }
  destruct (dict_rt letters a l Hs (proj1 (after_inv ops)) (fits_ok a A) ND Hl H) as (bs & E & R).
  exists bs. split; [exact E|]. intros rest. eexists. rewrite R, Ev.
  rewrite insert_all_id by (auto; intros x y []). reflexivity.
Qed.

(** Other letters do not: U+1F600 becomes U+F600. *)
Theorem C12_letters_refuted :
  exists letters bs l, writeTransducerSet_letters letters new_alphabet [] = Ok bs
    /\ StronglySorted Z.lt letters /\ (forall c, In c letters -> is_scalar c)
    /\ readTransducerSet bs = Ok (l, new_alphabet, [], [])
    /\ exists c, In c letters /\ ~ In c l.
Proof.
  exists [0x1F600]. eexists. exists [0xF600]. split; [reflexivity|]. split; [repeat constructor|].
  split; [intros c [<-|[]]; unfold is_scalar; lia|]. split; [reflexivity|]. exists 0x1F600. split; [now left|].
  intros [C|[]]. discriminate.
Qed.

(** cat<n>:cat<n> with two sections; the arcs of node 0 on 'c' (99). *)
Definition c12_ops : list aop :=
  [OpInclude [60; 110; 62]; OpPair (99, 99); OpPair (-1, -1); OpPair (99, -1)].
Definition c12_t : ftrans :=
  mkF 0 [(2%nat, WFin 0 0)] [[(1, (1%nat, WFin 0 0)); (3, (2%nat, WFin 0 0))]; [(2, (2%nat, WFin 0 0))]; []].
Example C12_example : exists bs te, writeTransducerSet [99; 0xD83D; 0xDE00] (after c12_ops)
    [([109; 97], c12_t); ([120], mkF 0 [] [[]])] = Ok bs
  /\ readTransducerSet bs = Ok ([99; 0x1F600], after c12_ops, [([109; 97], c12_t); ([120], mkF 0 [] [[]])], [])
  /\ readTransducerSet_exe bs = Ok ([99; 0x1F600], after c12_ops, [([109; 97], te); ([120], mkTE 0 [] [[]])], [])
  /\ node_find 99 (nth 0 (te_nodes te) []) = [(99, (1%nat, WFin 0 0)); (-1, (2%nat, WFin 0 0))].
Proof. eexists. eexists. split; [reflexivity|]. split; [reflexivity|]. split; reflexivity. Qed.

(** * C13 *)
(** Loading a cut transducer fails exactly when the cut is inside the eight bytes of the
    feature field; every other cut is accepted.  What is missing for the full claim is
    every cut outside those eight bytes. *)
Theorem C13_header_cut_partial : forall bias t bs k, transducer_write bias t = Ok bs ->
  (4 <= k < 12)%nat -> transducer_read bias (firstn k bs) = Throw.
Proof.
  intros bias t bs k H Hk. assert (A := transducer_cut bias t bs k H).
  destruct (Nat.leb_spec 4 k); [|lia]. destruct (Nat.ltb_spec k 12); [|lia]. exact A.
Qed.

Theorem C13_other_cuts_accepted : forall bias t bs k, transducer_write bias t = Ok bs ->
  ~ (4 <= k < 12)%nat -> exists t' r, transducer_read bias (firstn k bs) = Ok (t', r).
Proof.
  intros bias t bs k H Hk. assert (A := transducer_cut bias t bs k H).
  destruct (Nat.leb_spec 4 k), (Nat.ltb_spec k 12); cbn [andb] in A; try exact A. lia.
Qed.

(** A dictionary with the single entry "c" whose file lost its last bytes loads without a
    complaint as a dictionary where the arc leads back to the initial state (and, cut one
    byte earlier, as one where it has another tag). *)
Theorem C13_refuted : exists t bs t' k, file_ok 0 t
  /\ transducer_write 0 t = Ok bs /\ (k < length bs)%nat
  /\ transducer_read 0 (firstn k bs) = Ok (t', [])
  /\ f_trans t = [[(1, (1%nat, WFin 0 0))]; []]
  /\ f_trans t' = [[(1, (0%nat, WFin 0 0))]; []].
Proof.
  exists (mkF 0 [(1%nat, WFin 0 0)] [[(1, (1%nat, WFin 0 0))]; []]). eexists. eexists. exists 18%nat.
  split.
  - split; cbn; try lia; try discriminate.
    + repeat constructor.
    + intros s w [E|[]]; injection E as <- <-; split; try lia; cbn; unfold is_double; cbn; lia.
    + intros l [<-|[<-|[]]]; (split; [repeat constructor|]; split; [cbn; lia|]);
      cbn; intros tag dst w H; repeat destruct H as [H|H]; try contradiction; injection H as <- <- <-;
      do 3 (split; [lia|]); unfold wt_ok, is_double; cbn; auto; lia.
  - split; [reflexivity|]. split; [cbn; lia|]. split; [reflexivity|]. split; reflexivity.
Qed.

(** The same for a whole dictionary: its last bytes are gone and both readers accept it,
    the entry lost. *)
Theorem C13_dictionary_refuted : exists bs k te, 
  writeTransducerSet [99] (after c12_ops) [([109], c12_t)] = Ok bs /\ (k < length bs)%nat
  /\ readTransducerSet (firstn k bs) = Ok ([99], after c12_ops, [([109], mkF 0 [] [[]])], [])
  /\ readTransducerSet_exe (firstn k bs) = Ok ([99], after c12_ops, [([109], te)], [])
  /\ te_nodes te = [].
Proof. eexists. exists 48%nat. eexists. split; [reflexivity|]. split; [cbn; lia|]. split; [vm_compute; reflexivity|]. split; [vm_compute; reflexivity|]. reflexivity. Qed.

Example C13_example : exists bs, transducer_write 0 c12_t = Ok bs
  /\ transducer_read 0 (firstn 11 bs) = Throw /\ transducer_read 0 bs = Ok (c12_t, []).
Proof. eexists. split; [reflexivity|]. split; reflexivity. Qed.

Print Assumptions C11_roundtrip.
Print Assumptions C11_unweighted.
Print Assumptions C12_roundtrip.
Print Assumptions C12_runtime_agrees.
Print Assumptions C12_runtime_loads.
Print Assumptions C12_letters_bmp_partial.
Print Assumptions C12_letters_refuted.
Print Assumptions C13_header_cut_partial.
Print Assumptions C13_other_cuts_accepted.
Print Assumptions C13_refuted.
Print Assumptions C13_dictionary_refuted.
