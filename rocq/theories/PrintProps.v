(** Properties of lt-print: the text, and compiling it again. *)
From Verif Require Import Base AlphabetModel AlphabetProofs TransducerModel TransducerSpec RelabelSpec RelabelProofs ComposeSpec AttModel AttSpec
  AttFileProofs AttPrintProofs AutomataProps AttProps.
From Coq Require String Ascii.
From Verif Require Import StreamProps.
Import String.StringSyntax.

(** * C67 *)
(** The text printed is well formed and gives exactly the words of the sections, with their weights. *)
Theorem C67_print : forall hfst a secs, alph_inv0 a -> secs <> [] -> Forall (fun p => section_prints hfst a (snd p)) secs ->
  exists text ms, lt_print a hfst true secs = Ok text /\ file_says hfst text ms
    /\ forall x y c, file_means ms x y c <-> exists name t, In (name, t) secs /\ srel t a x y c.
Proof.
  intros hfst a secs I NE F. destruct (lt_print_ok hfst a secs true I NE F) as (text & ms & E & FS & FM & _). exists text, ms. auto.
Qed.

(** Compiling that text without splitting gives back the words of all sections. *)
Theorem C67_round : forall punct space lower upper toupper tolower hfst a secs, alph_inv0 a -> secs <> [] ->
  Forall (fun p => section_prints hfst a (snd p)) secs ->
  fold_right (fun p n => Z.of_nat (nstates (snd p)) + 1 + n) 1 secs < 2 ^ 31 ->
  exists text letters a' t, lt_print a hfst true secs = Ok text
    /\ att_compile punct space lower upper toupper tolower hfst false false text = Ok (letters, a', [(main_name, t)])
    /\ (forall x y c, srel t a' x y c -> exists name s, In (name, s) secs /\ srel s a x y c)
    /\ (forall name s x y c, In (name, s) secs -> srel s a x y c -> exists c', srel t a' x y c')
    /\ (Forall (fun p => one_weight (snd p)) secs -> forall name s x y c, In (name, s) secs -> srel s a x y c -> srel t a' x y c).
Proof.
  intros until secs. intros I NE F SM. destruct (lt_print_ok hfst a secs true I NE F) as (text & ms & E & FS & FM & WA & TS & SS).
  destruct (C66_compile punct space lower upper toupper tolower hfst false text ms FS) as (letters & a' & t & Ec & W & S1 & S2 & S3).
  - unfold fits. unfold states_sum in TS. lia.
  - intros m ->. now inversion SS.
  - exists text, letters, a', t. split; [exact E|]. split; [exact Ec|]. split; [|split].
    + intros x y c H. apply FM, S1, H.
    + intros name s x y c Hn H. apply (S2 x y c), FM. eauto.
    + intros OW name s x y c Hn H. apply (S3 (WA OW)), FM. eauto.
Qed.

(** ** Cases *)
(** Two sections, with a tag, a weight, and a letter beyond 16 bits. *)
Definition pr_alph : alphabet := snd (pair_code (66560, 66560) (snd (pair_code (97, 0) (snd (pair_code (0, -1) (includeSymbol (txt "<n>") new_alphabet)))))).
Definition pr_one : transducer := TransducerModel.mkT 0 [(1%nat, 0); (2%nat, -250000)] [[(2, (1%nat, 0))]; [(1, (2%nat, 1500000))]; []].
Definition pr_two : transducer := TransducerModel.mkT 0 [(1%nat, 7)] [[(3, (1%nat, 0)); (3, (0%nat, 0))]; []].
Definition pr_secs : list (ustr * transducer) := [(txt "a@x", pr_one); (txt "b@x", pr_two)].
Lemma pr_inv : alph_inv0 pr_alph.
Proof.
  split; [unfold pr_alph; repeat apply pair_inv; apply include_inv; exact (proj1 new_inv)|reflexivity].
Qed.
Lemma pr_prints : Forall (fun p => section_prints false pr_alph (snd p)) pr_secs.
Proof.
  assert (A1 : as_symbols pr_alph 1 (SChar 0, STag (txt "<n>"))) by (exists 0, (-1); repeat split; cbn; lia).
  assert (A2 : as_symbols pr_alph 2 (SChar 97, SChar 0)) by (exists 97, 0; repeat split; cbn; lia).
  assert (A3 : as_symbols pr_alph 3 (SChar 66560, SChar 66560)) by (exists 66560, 66560; repeat split; cbn; lia).
  assert (P : forall tag s, as_symbols pr_alph tag s -> (tag = 1 \/ tag = 2 \/ tag = 3) -> printable false (fst s) /\ printable false (snd s)).
  { intros tag s H [-> |[-> | ->]].
    - rewrite (as_symbols_fun _ _ _ _ H A1). split; [now left|]. split; [now exists (txt "n")|]. vm_compute. repeat (constructor; [repeat split; intros K; discriminate K|]). constructor.
    - rewrite (as_symbols_fun _ _ _ _ H A2). split; [right|now left]. unfold character. lia.
    - rewrite (as_symbols_fun _ _ _ _ H A3). split; right; unfold character; lia. }
  assert (E1 : forall p tag q w, has_arc pr_one p tag q w -> tag = 1 \/ tag = 2 \/ tag = 3).
  { intros [|[|[|[|p]]]] tag q w H; cbn in H; try tauto; destruct H as [[= <- _ _]|[]]; auto. }
  assert (E2 : forall p tag q w, has_arc pr_two p tag q w -> tag = 1 \/ tag = 2 \/ tag = 3).
  { intros [|[|[|p]]] tag q w H; cbn in H; try tauto; destruct H as [[= <- _ _]|[[= <- _ _]|[]]]; auto. }
  constructor; [|constructor; [|constructor]]; cbn [snd].
  - split; [apply wfb_wf; reflexivity|]. split; [reflexivity|]. split; [discriminate|]. split; [discriminate|]. split.
    + intros p tag q w H. destruct (E1 _ _ _ _ H) as [-> |[-> | ->]]; eauto.
    + intros p tag q w s H S. eauto.
  - split; [apply wfb_wf; reflexivity|]. split; [reflexivity|]. split; [discriminate|]. split; [discriminate|]. split.
    + intros p tag q w H. destruct (E2 _ _ _ _ H) as [-> |[-> | ->]]; eauto.
    + intros p tag q w s H S. eauto.
Qed.
Definition row (l : list ustr) : ustr := line_text l.
Example C67_print_case :
  lt_print pr_alph false true pr_secs =
    Ok (flat_map row [[txt "0"; txt "1"; txt "a"; [949]; txt "0.000000"]; [txt "1"; txt "3"; [949]; [949]; txt "0.000000"]; 
          [txt "1"; txt "2"; [949]; txt "<n>"; txt "1.500000"]; [txt "2"; txt "3"; [949]; [949]; txt "-0.250000"]; [txt "3"; txt "0.000000"];
          [txt "--"]; [txt "0"; txt "1"; [55297; 56320]; [55297; 56320]; txt "0.000000"]; [txt "0"; txt "0"; [55297; 56320]; [55297; 56320]; txt "0.000000"]; [txt "1"; txt "0.000007"]]).
Proof. vm_compute. reflexivity. Qed.
Example C67_round_case : exists text letters a' t, lt_print pr_alph false true pr_secs = Ok text
  /\ asc_compile false false false text = Ok (letters, a', [(main_name, t)])
  /\ srel t a' [SChar 97] [STag (txt "<n>")] 1250000 /\ srel t a' [SChar 66560; SChar 66560] [SChar 66560; SChar 66560] 7.
Proof.
  destruct (C67_round asc_punct asc_space asc_lower asc_upper asc_toupper asc_tolower false pr_alph pr_secs pr_inv ltac:(discriminate) pr_prints ltac:(reflexivity))
    as (text & letters & a' & t & E & Ec & _ & _ & K). exists text, letters, a', t. split; [exact E|]. split; [exact Ec|].
  assert (OW : Forall (fun p => one_weight (snd p)) pr_secs).
  { constructor; [|constructor; [|constructor]]; cbn [snd].
    - intros [|[|[|[|p]]]] tag q w w' H H'; cbn in H, H'; try tauto; destruct H as [[= _ _ <-]|[]]; destruct H' as [[= _ _ <-]|[]]; reflexivity.
    - intros [|[|[|p]]] tag q w w' H H'; cbn in H, H'; try tauto. destruct H as [[= _ _ <-]|[[= _ _ <-]|[]]]; destruct H' as [[= _ _ <-]|[[= _ _ <-]|[]]]; reflexivity. }
  split.
  - apply (K OW (txt "a@x") pr_one); [now left|]. exists [((SChar 97, SChar 0), 0); ((SChar 0, STag (txt "<n>")), 1500000)], (-250000). split; [|repeat split].
    exists 2%nat. split; [|right; now left]. apply (trace_cons _ pr_one 0 2 _ 0 1); [now left|exists 97, 0; repeat split; cbn; lia|].
    apply (trace_cons _ pr_one 1 1 _ 1500000 2); [now left|exists 0, (-1); repeat split; cbn; lia|]. constructor.
  - apply (K OW (txt "b@x") pr_two); [right; now left|]. exists [((SChar 66560, SChar 66560), 0); ((SChar 66560, SChar 66560), 0)], 7. split; [|repeat split].
    exists 1%nat. split; [|now left]. apply (trace_cons _ pr_two 0 3 _ 0 0); [right; now left|exists 66560, 66560; repeat split; cbn; lia|].
    apply (trace_cons _ pr_two 0 3 _ 0 1); [now left|exists 66560, 66560; repeat split; cbn; lia|]. constructor.
Qed.

(** *** What does not hold *)
(** The Greek letter epsilon is printed as it is and read as nothing. *)
Definition gr_alph : alphabet := snd (pair_code (949, 949) new_alphabet).
Definition gr_t : transducer := TransducerModel.mkT 0 [(1%nat, 0)] [[(1, (1%nat, 0))]; []].
Theorem C67_greek_refuted : exists a t text letters a' t' x, wf t /\ alph_inv0 a /\ srel t a x x 0 /\ lt_print a false true [(main_name, t)] = Ok text
  /\ asc_compile false false false text = Ok (letters, a', [(main_name, t')]) /\ forall c, ~ srel t' a' x x c.
Proof.
  exists gr_alph, gr_t. do 4 eexists. exists [SChar 949]. split; [apply wfb_wf; reflexivity|]. split; [split; [apply pair_inv, (proj1 new_inv)|reflexivity]|].
  split; [|split; [vm_compute; reflexivity|split; [vm_compute; reflexivity|]]].
  - exists [((SChar 949, SChar 949), 0)], 0. split; [|repeat split]. exists 1%nat. split; [|now left].
    apply (trace_cons _ gr_t 0 1 _ 0 1); [now left|exists 949, 949; repeat split; cbn; lia|constructor].
  - intros c (tr & f & (q & T & F) & I & _). destruct F as [F|[]]. injection F as <- <-. cbn [initial] in T.
    inversion T as [|p a0 x w q tr0 r HA HD T']; subst. cbn in HA. destruct HA as [HA|[]]. injection HA as <- <- <-.
    inversion T' as [|p a1 x' w' q' tr1 r' HA' HD' T'']; subst; [|cbn in HA'; destruct HA'].
    destruct HD as (l & r & D & D1 & _). vm_compute in D. injection D as <- <-. destruct x as [[n|k] y]; cbn in D1; [lia|]. destruct D1 as [_ <-]. discriminate I.
Qed.
(** A tab is printed as it is, and the line then has too many columns, unless -H is given. *)
Definition tb_alph : alphabet := snd (pair_code (9, 9) new_alphabet).
Theorem C67_tab_refuted : exists a t text, wf t /\ alph_inv0 a /\ (exists x, srel t a x x 0) /\ lt_print a false true [(main_name, t)] = Ok text
  /\ asc_compile false false false text = Exit.
Proof.
  exists tb_alph, gr_t. eexists. split; [apply wfb_wf; reflexivity|]. split; [split; [apply pair_inv, (proj1 new_inv)|reflexivity]|].
  split; [|split; [vm_compute; reflexivity|vm_compute; reflexivity]].
  exists [SChar 9], [((SChar 9, SChar 9), 0)], 0. split; [|repeat split]. exists 1%nat. split; [|now left].
  apply (trace_cons _ gr_t 0 1 _ 0 1); [now left|exists 9, 9; repeat split; cbn; lia|constructor].
Qed.
(** With a section that has no words nothing is printed: the program ends with an error. *)
Theorem C67_empty_refuted : exists a t, wf t /\ alph_inv0 a /\ (exists x, srel t a x x 0)
  /\ lt_print a false true [(final_name, new_transducer); (main_name, t)] = Exit.
Proof.
  exists tb_alph, gr_t. split; [apply wfb_wf; reflexivity|]. split; [split; [apply pair_inv, (proj1 new_inv)|reflexivity]|]. split; [|vm_compute; reflexivity].
  exists [SChar 9], [((SChar 9, SChar 9), 0)], 0. split; [|repeat split]. exists 1%nat. split; [|now left].
  apply (trace_cons _ gr_t 0 1 _ 0 1); [now left|exists 9, 9; repeat split; cbn; lia|constructor].
Qed.
(** The initial state is not printed: a transducer that starts elsewhere is read as one that starts at state 0. *)
Definition in_alph : alphabet := snd (pair_code (98, 98) (snd (pair_code (97, 97) new_alphabet))).
Definition in_t : transducer := TransducerModel.mkT 1 [(2%nat, 0)] [[(2, (1%nat, 0))]; [(1, (2%nat, 0))]; []].
Theorem C67_initial_refuted : exists a t text letters a' t' x, wf t /\ alph_inv0 a /\ lt_print a false true [(main_name, t)] = Ok text
  /\ asc_compile false false false text = Ok (letters, a', [(main_name, t')]) /\ srel t' a' x x 0 /\ forall c, ~ srel t a x x c.
Proof.
  exists in_alph, in_t. do 4 eexists. exists [SChar 98; SChar 97]. split; [apply wfb_wf; reflexivity|]. split; [split; [do 2 apply pair_inv; exact (proj1 new_inv)|reflexivity]|].
  split; [vm_compute; reflexivity|]. split; [vm_compute; reflexivity|]. split.
  - exists [((SChar 98, SChar 98), 0); ((SChar 97, SChar 97), 0)], 0. split; [|repeat split]. exists 2%nat. split; [|now left].
    eapply trace_cons; [now left|exists 98, 98; repeat split; cbn; lia|]. eapply trace_cons; [now left|exists 97, 97; repeat split; cbn; lia|constructor].
  - intros c (tr & f & (q & T & F) & I & _). destruct F as [F|[]]. injection F as <- <-. cbn [initial in_t] in T.
    inversion T as [|p a0 x w q tr0 r HA HD T']; subst. cbn in HA. destruct HA as [HA|[]]. injection HA as <- <- <-.
    inversion T' as [|p a1 x' w' q' tr1 r' HA' HD' T'']; subst; [|cbn in HA'; destruct HA'].
    destruct HD as (l & r & D & D1 & _). vm_compute in D. injection D as <- <-. destruct x as [[n|k] y]; cbn in D1; [lia|]. destruct D1 as [_ <-]. discriminate I.
Qed.

Print Assumptions C67_print.
Print Assumptions C67_round.
Print Assumptions C67_greek_refuted.
Print Assumptions C67_tab_refuted.
Print Assumptions C67_empty_refuted.
Print Assumptions C67_initial_refuted.
