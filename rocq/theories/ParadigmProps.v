(** lt-paradigm lists the words that a pattern describes (C71). *)
From Verif Require Import Base CompressionModel SerialiserModel SortedVectorModel AlphabetModel AlphabetProofs TransducerModel
  TransducerSpec TransducerProofs RelabelModel RelabelSpec RelabelProofs ComposeModel ComposeSpec ComposeProofs AutomataProps ComposeProps
  FileModel LoadModel LoadProofs TrimModel TrimSpec TrimProofs TrimProps InputModel ToolsModel ParadigmModel ParadigmSpec ParadigmPatterns ParadigmToolProofs.
From Verif Require InputProps.
From Coq Require String Ascii.
From Verif Require StreamProps.
Import String.StringSyntax.
Notation txt := StreamProps.txt.

(** The transducer of a pattern reads the words that fit. *)
Theorem C71_pattern : forall letters tags exclude a items text, (forall c, In c letters -> 0 < c) -> alph_inv0 a ->
  (forall c, In c tags <-> exists m, as_symbol a c (STag m) /\ ~ In m exclude) -> tag_known a (in_brackets [42]) ->
  Forall (item_ok a) items -> pattern_text items text ->
  exists other a', pattern_transducer letters tags text a = Ok (other, a') /\ wf other /\ symbols_in other a'
    /\ (forall c n, getSymbol c a = Ok n -> getSymbol c a' = Ok n) /\ (forall tag p, decode tag a = Ok p -> decode tag a' = Ok p)
    /\ forall z, (forall n, In (STag n) z -> tag_known a n) -> (known other a' z <-> fits letters exclude items z).
Proof.
  intros letters tags exclude a items text Hl I T K O Ht.
  destruct (pattern_spec letters tags exclude a items text Hl I T K O Ht) as (other & a' & E & W & _ & X & _ & S1 & _ & _ & F).
  exists other, a'. split; [exact E|]. split; [exact W|]. split; [exact S1|]. split; [intros c n; now apply getSymbol_extends|]. split; [intros tag p; now apply decode_extends|exact F].
Qed.

(** The whole program: for every pattern the lines of the words that fit, in order if asked to
    sort, all of them if no section has a way back. *)
Lemma item_ok_include : forall a i, alph_inv a -> item_ok a i -> item_ok (includeSymbol s_any_tag a) i.
Proof.
  intros a i I. assert (K : forall n, tag_known (includeSymbol s_any_tag a) n <-> tag_known a n \/ n = s_any_tag).
  { intros n. unfold tag_known. destruct (include_cases s_any_tag a I) as [[H ->]|[H ->]]; cbn [slexicinv].
    - split; [auto|]. intros [H'| ->]; assumption.
    - rewrite in_app_iff. cbn. intuition congruence. }
  assert (L : forall sep n ns, in_brackets (42 :: separated sep (n :: ns)) <> s_any_tag).
  { intros sep n ns H. unfold in_brackets, s_any_tag, separated in H. cbn [map concat app] in H. injection H as _ H. destruct n; [destruct (concat _)|]; discriminate H. }
  destruct i as [| |ns|ns|ns|[m|c]]; cbn [item_ok]; auto; rewrite ?K.
  - intros [H1 H2]. split; [exact H1|]. intros [H|H]; [exact (H2 H)|]. destruct H1 as [H1 _]. destruct ns as [|n ns]; [contradiction|]. exact (L _ _ _ H).
  - intros [H1 H2]. split; [exact H1|]. intros [H|H]; [exact (H2 H)|]. destruct H1 as [H1 _]. destruct ns as [|n ns]; [contradiction|]. exact (L _ _ _ H).
  - intros (H1 & H2 & n & H3 & H4). split; [exact H1|]. split; [|exists n; rewrite K; auto]. intros [H|H]; [exact (H2 H)|]. destruct H1 as [H1 _]. destruct ns as [|k ns]; [contradiction|]. discriminate H.
  - intros (n & -> & H1 & H2 & H3). exists n. rewrite K. auto.
Qed.
Theorem C71_listing : forall analyser sort exclude d more last text, alph_inv0 (d_alpha d) -> searchable analyser (d_alpha d) (d_sections d) (d_letters d) ->
  asked more last text -> Forall InputProps.scalar text ->
  Forall (fun x => Forall (item_ok (d_alpha d)) (fst x)) more -> Forall (item_ok (d_alpha d)) last ->
  exists out N, (forall fuel, (N <= fuel)%nat -> lt_paradigm fuel analyser sort exclude d (open_file (InputProps.utf8_text text)) = Ok out)
    /\ answer (listing analyser sort (d_alpha d) (d_sections d) (d_letters d) exclude) more last out.
Proof.
  intros analyser sort exclude [letters a0 m] more last text I [Ls Hl U1 U2 Nz] As Sc O1 O2. cbn [d_alpha d_sections d_letters] in *.
  set (a1 := includeSymbol s_any_tag a0). assert (X1 : extends a0 a1) by (apply include_extends; apply I). assert (I1 : alph_inv0 a1) by (eapply inv0_extends; [exact I|apply include_inv; apply I|exact X1]).
  assert (L1 : forall s, In s (by_name m) -> listable analyser a1 (snd s)).
  { intros [n t] Hs. apply (proj1 (by_name_in _ _)) in Hs. apply (listable_larger _ _ _ _ X1). exact (Ls n t Hs). }
  assert (S0 : forall s, In s (by_name m) -> symbols_in (snd s) a0) by (intros [n t] Hs; apply (proj1 (by_name_in _ _)) in Hs; exact (ls_symbols _ _ _ (Ls n t Hs))).
  assert (St : exists m' a', (if analyser then Ok (by_name m, a1) else invert_sections (by_name m) a1) = Ok (m', a') /\ underway analyser a0 a1 (by_name m) m' a').
  { destruct analyser.
    - exists (by_name m), a1. split; [reflexivity|]. split; [exact I1|]. split; [reflexivity|].
      assert (G : forall l, (forall s, In s l -> listable true a1 (snd s) /\ symbols_in (snd s) a0) -> Forall2 (stands true a0 a1) l l); [|apply G; intros s Hs; split; [exact (L1 s Hs)|exact (S0 s Hs)]].
      induction l as [|s l IH]; intros H; constructor; [|apply IH; intros z Hz; apply H; now right]. destruct (H s (or_introl eq_refl)) as [H1 H2].
      split; [reflexivity|]. split; [exact H1|]. split; [auto|]. intros x y c. exact (srel_larger (snd s) a0 a1 x y c X1 H2).
    - destruct (invert_sections_spec (by_name m) a1 I1 L1) as (m' & a' & E & I' & X' & E' & F). exists m', a'. split; [exact E|]. split; [exact I'|]. split; [exact E'|].
      eapply Forall2_weaken; [|exact F]. intros s s' Hs. exact (stands_back _ _ _ _ _ _ X1 (S0 s Hs)). }
  destruct St as (m' & a' & Es & V).
  assert (To : forall items r l, to_list analyser a0 (by_name m) letters exclude items r l <-> to_list analyser a0 m letters exclude items r l).
  { intros items r l. split; intros (n & t & x & y & c & H1 & H2); exists n, t, x, y, c; (split; [|exact H2]); now apply by_name_in. }
  assert (Kn : forall n, n <> s_any_tag -> ~ tag_known a0 n -> ~ tag_known a1 n).
  { intros n Hn H K. unfold tag_known, a1 in K. destruct (include_cases s_any_tag a0 (proj1 I)) as [[_ E]|[_ E]]; rewrite E in K; [exact (H K)|]. cbn [slexicinv] in K. apply in_app_iff in K as [K|[K|[]]]; [exact (H K)|congruence]. }
  destruct (patterns_spec analyser sort a0 a1 (by_name m) letters (listed_tags exclude 0 (slexicinv a1)) exclude Hl (listed_ok exclude a1)) with (more := more) (last := last) (text := text)
    (f := open_file (InputProps.utf8_text text)) (m' := m') (a := a') (k := S (i_size (open_file (InputProps.utf8_text text)))) as (out & N & E & An).
  - apply include_in. apply I.
  - apply Kn; [discriminate|exact U1].
  - apply Kn; [discriminate|exact U2].
  - intros items r l (n & t & x & y & c & _ & H2 & _ & -> & -> & _). assert (G : ~ In 0 (shown x) /\ ~ In 0 (shown y)).
    { destruct analyser; cbn [negb srel_o] in H2; [exact (shown_nonzero a0 t x y c (proj1 I) Nz H2)|]. apply and_comm. exact (shown_nonzero a0 t y x c (proj1 I) Nz H2). }
    now apply print_whole.
  - exact As.
  - eapply Forall_impl; [|exact O1]. intros x. apply Forall_impl. intros i. apply item_ok_include. apply I.
  - eapply Forall_impl; [|exact O2]. intros i. apply item_ok_include. apply I.
  - now apply InputProps.at_text_open.
  - exact V.
  - apply Nat.lt_succ_r. apply InputProps.at_text_size. now apply InputProps.at_text_open.
  - exists out, N. split.
    + intros fuel Hf. unfold lt_paradigm. cbn [d_alpha d_sections d_letters]. fold a1. cbn zeta. rewrite Es. cbn [obind]. exact (E fuel Hf).
    + clear - An To. induction An as [items lines H|items lines e more last out H _ IH]; constructor; auto.
      * destruct H as (H1 & H2 & H3). split; [exact H1|]. split; [intros r l Hin; apply To; auto|]. intros A r l Ht. apply H3; [|now apply To]. intros n t Hn. apply (A n). now apply (proj1 (by_name_in _ _)) in Hn.
      * destruct H as (H1 & H2 & H3). split; [exact H1|]. split; [intros r l Hin; apply To; auto|]. intros A r l Ht. apply H3; [|now apply To]. intros n t Hn. apply (A n). now apply (proj1 (by_name_in _ _)) in Hn.
Qed.

(** * Examples *)
(** Deciding whether a dictionary is searchable *)
Definition symb (x y : symbol) : bool :=
  match x, y with STag n, STag m => if ustr_eq_dec n m then true else false | SChar c, SChar d => c =? d | _, _ => false end.
Lemma symb_refl : forall x, symb x x = true.
Proof. intros [n|c]; cbn [symb]; [now destruct (ustr_eq_dec n n)|apply Z.eqb_refl]. Qed.
Definition charb (x : symbol) : bool := match x with SChar c => c <? 1114112 | STag _ => true end.
Definition soundb (a : alphabet) (t : transducer) : bool :=
  wfb t && all_readable t a && forallb (fun arcs => forallb (fun x => charb (fst (symbols_of a (a_tag x))) && charb (snd (symbols_of a (a_tag x)))) arcs) (trans t).
Definition sound (a : alphabet) (t : transducer) : Prop := wf t /\ symbols_in t a /\ chars_ok t a.
Lemma soundb_sound : forall a t, soundb a t = true -> sound a t.
Proof.
  intros a t H. unfold soundb in H. apply andb_true_iff in H as [H H3]. apply andb_true_iff in H as [H1 H2]. split; [now apply wfb_wf|]. split; [now apply all_readable_symbols|].
  intros p b q w x y c Ha Hx Hc. assert (G : charb (fst (x, y)) = true /\ charb (snd (x, y)) = true).
  { apply (arcs_all t a (fun x => charb (fst x) = true /\ charb (snd x) = true) H2) with (p := p) (b := b) (q := q) (w := w); [|exact Ha|exact Hx].
    intros arcs Hr z Hz. rewrite forallb_forall in H3. specialize (H3 _ Hr). rewrite forallb_forall in H3. specialize (H3 _ Hz). now apply andb_true_iff in H3. }
  cbn [fst snd] in G. destruct G as [G1 G2]. destruct Hc as [-> | ->]; cbn [charb] in G1, G2; apply Z.ltb_lt; assumption.
Qed.
Definition markb (x : symbol) : bool := existsb (symb x) (plus_sym :: separators).
Definition listableb (analyser : bool) (a : alphabet) (t : transducer) : bool :=
  soundb a t && negb (match finals t with [] => true | _ => false end)
  && forallb (fun arcs => forallb (fun x => negb (markb ((if analyser then snd else fst) (symbols_of a (a_tag x))))) arcs) (trans t).
Lemma listableb_listable : forall analyser a t, listableb analyser a t = true -> listable analyser a t.
Proof.
  intros analyser a t H. unfold listableb in H. apply andb_true_iff in H as [H H3]. apply andb_true_iff in H as [H1 H2].
  assert (R : all_readable t a = true) by (unfold soundb in H1; apply andb_true_iff in H1 as [H1 _]; now apply andb_true_iff in H1).
  destruct (soundb_sound a t H1) as (W & Sy & Ch). constructor; auto.
  - intros E. rewrite E in H2. discriminate H2.
  - intros s Hs. assert (G : forall p b q w x, has_arc t p b q w -> as_symbols a b x -> (if analyser then snd else fst) x <> s).
    { apply (arcs_all t a (fun x => (if analyser then snd else fst) x <> s) R). intros arcs Hr z Hz E. rewrite forallb_forall in H3. specialize (H3 _ Hr). rewrite forallb_forall in H3. specialize (H3 _ Hz).
      apply negb_true_iff in H3. rewrite E in H3. assert (X : markb s = true); [|congruence]. apply existsb_exists. exists s. split; [exact Hs|apply symb_refl]. }
    destruct analyser; intros (p & b & q & w & x & Ha & Hx); exact (G _ _ _ _ _ Ha Hx eq_refl).
Qed.
Definition in_names (n : ustr) (a : alphabet) : bool := existsb (fun m => if ustr_eq_dec n m then true else false) (slexicinv a).
Lemma in_names_known : forall n a, in_names n a = true <-> tag_known a n.
Proof.
  intros n a. unfold in_names, tag_known. rewrite existsb_exists. split.
  - intros (m & H & E). destruct (ustr_eq_dec n m) as [->|]; [exact H|discriminate].
  - intros H. exists n. split; [exact H|]. now destruct (ustr_eq_dec n n).
Qed.
Definition searchableb (analyser : bool) (a : alphabet) (sections : list (ustr * transducer)) (letters : list Z) : bool :=
  forallb (fun s => listableb analyser a (snd s)) sections && forallb (fun c => 0 <? c) letters
  && negb (in_names w_any_char a) && negb (in_names w_any_tag a) && forallb (fun n => forallb (fun c => negb (c =? 0)) n) (slexicinv a).
Lemma searchableb_searchable : forall analyser a m letters, searchableb analyser a m letters = true -> searchable analyser a m letters.
Proof.
  intros analyser a m letters H. unfold searchableb in H. apply andb_true_iff in H as [H H5]. apply andb_true_iff in H as [H H4]. apply andb_true_iff in H as [H H3]. apply andb_true_iff in H as [H1 H2].
  rewrite forallb_forall in H1, H2, H5. apply negb_true_iff in H3, H4. constructor.
  - intros n t Hs. apply listableb_listable. exact (H1 _ Hs).
  - intros c Hc. apply Z.ltb_lt. now apply H2.
  - intros K. apply in_names_known in K. congruence.
  - intros K. apply in_names_known in K. congruence.
  - intros n K Z0. specialize (H5 _ K). rewrite forallb_forall in H5. specialize (H5 _ Z0). discriminate H5.
Qed.
Definition forwardb (t : transducer) : bool :=
  forallb (fun p => forallb (fun x => (p <? a_dst x)%nat) (arcs_of t p)) (seq 0 (length (trans t))).
Lemma forwardb_acyclic : forall t, forwardb t = true -> acyclic t.
Proof.
  intros t H. assert (G : forall p l q, path t p l q -> (l = [] /\ p = q) \/ (p < q)%nat).
  { intros p l q Hp. induction Hp as [p|p b w q l r Ha Hp IH]; [now left|]. right. assert (L := has_arc_lt _ _ _ _ _ Ha).
    unfold forwardb in H. rewrite forallb_forall in H. assert (Hq : In p (seq 0 (length (trans t)))) by (apply in_seq; unfold nstates in L; lia). specialize (H _ Hq). rewrite forallb_forall in H. specialize (H _ Ha).
    apply Nat.ltb_lt in H. cbn [a_dst fst snd] in H. destruct IH as [[_ <-]|IH]; lia. }
  intros p l Hp. destruct (G _ _ _ Hp) as [[H1 _]|H1]; [exact H1|lia].
Qed.

(** a -> a<n>, ab -> a<n><pl>, b -> b<v>; and the other way round for generating *)
Definition pA : alphabet := after [OpInclude (txt "<n>"); OpInclude (txt "<pl>"); OpInclude (txt "<v>"); OpPair (97, 97); OpPair (0, -1); OpPair (98, -2); OpPair (98, 98); OpPair (0, -3)].
Definition pT : transducer := mkT 0 [(2%nat, 0); (3%nat, 0); (5%nat, 0)] [[(1, (1%nat, 0)); (4, (4%nat, 0))]; [(2, (2%nat, 0))]; [(3, (3%nat, 0))]; []; [(5, (5%nat, 0))]; []].
Definition pG : alphabet := after [OpInclude (txt "<n>"); OpInclude (txt "<pl>"); OpInclude (txt "<v>"); OpPair (97, 97); OpPair (-1, 0); OpPair (-2, 98); OpPair (98, 98); OpPair (-3, 0)].
Definition pD : dict := mkD [97; 98] pA [(txt "main", pT)].
Definition pDG : dict := mkD [97; 98] pG [(txt "main", pT)].
Definition two_patterns : list Z := txt "a<n><*>" ++ 10 :: txt "*<v>".
Lemma txt_pattern : forall items u rest, written items u -> pattern_text [] rest -> pattern_text [items] (u ++ rest).
Proof. intros. now constructor. Qed.
Lemma two_asked : asked [([PSymbol (SChar 97); PSymbol (STag (txt "<n>")); PTags], 10)] [PLetters; PSymbol (STag (txt "<v>"))] two_patterns.
Proof.
  apply (asked_more _ (txt "a<n><*>")); [|intros c Hc; cbn in Hc; intuition lia|now left|apply asked_last; [|intros c Hc; cbn in Hc; intuition lia]].
  - change (pattern_text [PSymbol (SChar 97); PSymbol (STag (in_brackets [110])); PTags] ([97] ++ in_brackets [110] ++ in_brackets [42] ++ [])). repeat apply pt_cons; try constructor; lia.
  - change (pattern_text [PLetters; PSymbol (STag (in_brackets [118]))] ([42] ++ in_brackets [118] ++ [])). repeat apply pt_cons; constructor.
Qed.
Definition printed : ustr := txt "a<n>:a" ++ [10] ++ txt "a<n><pl>:ab" ++ [10; 10] ++ txt "b<v>:b" ++ [10].
Example C71_example :
  lt_paradigm 30 true true [] pD (open_file (InputProps.utf8_text two_patterns)) = Ok printed
  /\ lt_paradigm 30 false true [] pDG (open_file (InputProps.utf8_text two_patterns)) = Ok printed
  /\ searchable true pA (d_sections pD) [97; 98] /\ searchable false pG (d_sections pDG) [97; 98] /\ acyclic pT.
Proof.
  split; [vm_compute; reflexivity|]. split; [vm_compute; reflexivity|]. split; [now apply searchableb_searchable|]. split; [now apply searchableb_searchable|]. now apply forwardb_acyclic.
Qed.
(** The patterns of the example are understood. *)
Example C71_patterns_example : asked [([PSymbol (SChar 97); PSymbol (STag (txt "<n>")); PTags], 10)] [PLetters; PSymbol (STag (txt "<v>"))] two_patterns
  /\ Forall InputProps.scalar two_patterns /\ Forall (item_ok pA) [PSymbol (SChar 97); PSymbol (STag (txt "<n>")); PTags] /\ Forall (item_ok pA) [PLetters; PSymbol (STag (txt "<v>"))].
Proof.
  split; [exact two_asked|]. split; [apply Forall_forall; intros c Hc; cbn in Hc; unfold InputProps.scalar; intuition lia|].
  assert (G : forall n, ~ In 62 n -> in_brackets n <> in_brackets [42] -> in_names (in_brackets n) pA = true -> item_ok pA (PSymbol (STag (in_brackets n)))).
  { intros n H1 H2 H3. exists n. split; [reflexivity|]. split; [exact H1|]. split; [exact H2|]. exact (proj1 (in_names_known _ _) H3). }
  split; repeat apply Forall_cons; try apply Forall_nil; try exact I.
  - cbn [item_ok]. lia.
  - apply (G [110]); [cbn; intuition lia|discriminate|reflexivity].
  - apply (G [118]); [cbn; intuition lia|discriminate|reflexivity].
Qed.
(** The pattern a<|n|v> and its transducer *)
Definition pX : alphabet := includeSymbol (txt "<*>") pA.
Example C71_pattern_example : exists other a', pattern_transducer [97; 98] (listed_tags [] 0 (slexicinv pX)) (txt "a<|n|v>") pX = Ok (other, a')
  /\ srel other a' [SChar 97; STag (txt "<n>")] [SChar 97; STag (txt "<n>")] 0 /\ srel other a' [SChar 97; STag (txt "<v>")] [SChar 97; STag (txt "<v>")] 0
  /\ forall y c, ~ srel other a' [SChar 97; STag (txt "<pl>")] y c.
Proof.
  eexists. eexists. split; [vm_compute; reflexivity|].
  split; [match goal with |- srel ?t ?a _ _ _ => apply (srel_run t a [(1, 0); (7, 0)] 2 0 eq_refl); [run|cbn; tauto] end|].
  split; [match goal with |- srel ?t ?a _ _ _ => apply (srel_run t a [(1, 0); (6, 0)] 2 0 eq_refl); [run|cbn; tauto] end|].
  intros y c H. related 10%nat H.
Qed.

(** * What lt-paradigm does not do *)
Notation search text := (open_file (InputProps.utf8_text text)).
(** Nothing to list: the finite relation of the only section holds no fitting word. *)
Ltac nothing n :=
  let name := fresh "name" in let t := fresh "t" in let x := fresh "x" in let y := fresh "y" in let c := fresh "c" in let H := fresh "H" in let F := fresh "F" in
  let E := fresh "E" in let Er := fresh "Er" in let El := fresh "El" in
  intros (name & t & x & y & c & [E|[]] & H & F & Er & El & _); injection E as <- <-; cbn [negb srel_o] in H;
  eapply (related_all n) in H; [|vm_compute; reflexivity|vm_compute; reflexivity]; cbn [In] in H;
  repeat (destruct H as [H|H]; [injection H as <- <- <-; first [discriminate Er|discriminate El|idtac]|]); try contradiction H.
Ltac unfit := repeat match goal with
  | H : fits _ _ _ ?z |- _ => let z' := eval vm_compute in z in change z with z' in H; inversion H; clear H; subst
  | H : Forall _ (_ :: _) |- _ => inversion H; clear H; subst
  | H : exists _, _ |- _ => destruct H
  | H : _ /\ _ |- _ => destruct H
  | H : SChar _ = _ |- _ => discriminate H
  | H : ?u ++ ?v = _ |- _ => destruct u; cbn [app] in H; [subst|injection H as H ?; subst]
  end.
(** After a '+' in an analysis the pattern starts again: a also lists a+a. *)
Definition plusA : alphabet := after [OpPair (97, 97); OpPair (43, 43)].
Definition plusT : transducer := mkT 0 [(1%nat, 0); (3%nat, 0)] [[(1, (1%nat, 0))]; [(2, (2%nat, 0))]; [(1, (3%nat, 0))]; []].
Theorem C71_plus_refuted : exists d items text r l, alph_inv0 (d_alpha d) /\ (forall name t, In (name, t) (d_sections d) -> sound (d_alpha d) t /\ finals t <> [] /\ acyclic t)
  /\ Forall (item_ok (d_alpha d)) items /\ asked [] items text
  /\ lt_paradigm 30 true true [] d (search text) = Ok (line_text (txt "a", txt "a") ++ line_text (r, l))
  /\ ~ to_list true (d_alpha d) (d_sections d) (d_letters d) [] items r l.
Proof.
  exists (mkD [97] plusA [(txt "main", plusT)]), [PSymbol (SChar 97)], (txt "a"), (txt "a+a"), (txt "a+a").
  split; [apply after_inv0|]. split; [intros name t [E|[]]; injection E as <- <-; split; [now apply soundb_sound|]; split; [discriminate|now apply forwardb_acyclic]|].
  split; [repeat constructor; cbn; lia|]. split; [apply asked_last; [change (pattern_text [PSymbol (SChar 97)] ([97] ++ [])); repeat apply pt_cons; constructor; lia|intros c Hc; cbn in Hc; intuition lia]|].
  split; [vm_compute; reflexivity|]. nothing 10%nat. unfit.
Qed.
(** A tag that the dictionary does not have is left out of the pattern: a<foo> and a<|foo> list a. *)
Definition oneA : alphabet := after [OpInclude (txt "<n>"); OpPair (97, 97); OpPair (0, -1); OpPair (98, 98)].
(** a *)
Definition oneT : transducer := mkT 0 [(1%nat, 0)] [[(1, (1%nat, 0))]; []].
Definition oneD : dict := mkD [97; 98] oneA [(txt "main", oneT)].
Ltac pattern_asked := apply asked_last; [|let c := fresh in let Hc := fresh in intros c Hc; cbn in Hc; intuition lia].
Theorem C71_unknown_tag_refuted : exists d, alph_inv0 (d_alpha d) /\ searchable true (d_alpha d) (d_sections d) (d_letters d)
  /\ forall items text, (items, text) = ([PSymbol (SChar 97); PSymbol (STag (txt "<foo>"))], txt "a<foo>") \/ (items, text) = ([PSymbol (SChar 97); POneOf [txt "foo"]], txt "a<|foo>") ->
  asked [] items text /\ lt_paradigm 30 true true [] d (search text) = Ok (line_text (txt "a", txt "a"))
  /\ ~ to_list true (d_alpha d) (d_sections d) (d_letters d) [] items (txt "a") (txt "a").
Proof.
  exists oneD. split; [apply after_inv0|]. split; [now apply searchableb_searchable|]. intros items text [E|E]; injection E as -> ->.
  - split; [pattern_asked; change (pattern_text [PSymbol (SChar 97); PSymbol (STag (in_brackets (txt "foo")))] ([97] ++ in_brackets (txt "foo") ++ [])); repeat apply pt_cons; constructor; lia|].
    split; [vm_compute; reflexivity|]. nothing 10%nat. unfit.
  - split; [pattern_asked; change (pattern_text [PSymbol (SChar 97); POneOf [txt "foo"]] ([97] ++ in_brackets (separated 124 [txt "foo"]) ++ [])); repeat apply pt_cons; constructor; lia|].
    split; [vm_compute; reflexivity|]. nothing 10%nat. unfit.
Qed.
(** An escaped star is a star. *)
Theorem C71_star_refuted : exists d, alph_inv0 (d_alpha d) /\ searchable true (d_alpha d) (d_sections d) (d_letters d)
  /\ asked [] [PSymbol (SChar 42)] (txt "\*") /\ lt_paradigm 30 true true [] d (search (txt "\*")) = Ok (line_text (txt "a", txt "a"))
  /\ ~ to_list true (d_alpha d) (d_sections d) (d_letters d) [] [PSymbol (SChar 42)] (txt "a") (txt "a").
Proof.
  exists oneD. split; [apply after_inv0|]. split; [now apply searchableb_searchable|].
  split; [pattern_asked; change (pattern_text [PSymbol (SChar 42)] ([92; 42] ++ [])); repeat apply pt_cons; constructor|].
  split; [vm_compute; reflexivity|]. nothing 10%nat. unfit.
Qed.
(** A character of two units is left out of the pattern: the pattern of U+1F600 and a lists a,
    and does not list the word that it is. *)
Definition wideA : alphabet := after [OpPair (97, 97); OpPair (128512, 128512)].
Definition wideT : transducer := mkT 0 [(1%nat, 0)] [[(1, (1%nat, 0)); (2, (2%nat, 0))]; []; [(1, (1%nat, 0))]].
Theorem C71_wide_refuted : exists d, alph_inv0 (d_alpha d) /\ searchable true (d_alpha d) (d_sections d) (d_letters d) /\ Forall InputProps.scalar [128512; 97]
  /\ (exists name t, In (name, t) (d_sections d) /\ srel t (d_alpha d) [SChar 128512; SChar 97] [SChar 128512; SChar 97] 0)
  /\ lt_paradigm 30 true true [] d (search [128512; 97]) = Ok (line_text (txt "a", txt "a")).
Proof.
  exists (mkD [97] wideA [(txt "main", wideT)]). split; [apply after_inv0|]. split; [now apply searchableb_searchable|].
  split; [repeat constructor; unfold InputProps.scalar; lia|]. split; [|vm_compute; reflexivity].
  exists (txt "main"), wideT. split; [now left|]. match goal with |- srel ?t ?a _ _ _ => apply (srel_run t a [(2, 0); (1, 0)] 1 0 eq_refl); [run|cbn; tauto] end.
Qed.
(** With a way back in the dictionary fitting words are missing. *)
Definition loopT : transducer := mkT 0 [(1%nat, 0)] [[(1, (0%nat, 0)); (3, (1%nat, 0))]; []].
Theorem C71_loop_refuted : exists d lines r l, alph_inv0 (d_alpha d) /\ searchable true (d_alpha d) (d_sections d) (d_letters d)
  /\ asked [] [PLetters] (txt "*") /\ lt_paradigm 30 true true [] d (search (txt "*")) = Ok (concat (map line_text lines))
  /\ lines <> [] /\ to_list true (d_alpha d) (d_sections d) (d_letters d) [] [PLetters] r l /\ ~ In (r, l) lines.
Proof.
  exists (mkD [97; 98] oneA [(txt "main", loopT)]), [(txt "ab", txt "ab"); (txt "b", txt "b")], (txt "aab"), (txt "aab"). split; [apply after_inv0|]. split; [now apply searchableb_searchable|].
  split; [pattern_asked; change (pattern_text [PLetters] ([42] ++ [])); repeat apply pt_cons; constructor|].
  split; [vm_compute; reflexivity|]. split; [discriminate|]. split; [|intros [E|[E|[]]]; discriminate E].
  exists (txt "main"), loopT, [SChar 97; SChar 97; SChar 98], [SChar 97; SChar 97; SChar 98], 0. split; [now left|].
  split; [match goal with |- srel_o _ ?t ?a _ _ _ => apply (srel_run t a [(1, 0); (1, 0); (3, 0)] 1 0 eq_refl); [run|cbn; tauto] end|].
  split; [|repeat split; discriminate]. change (fits [97; 98] [] [PLetters] ([SChar 97; SChar 97; SChar 98] ++ [])). constructor; [|constructor].
  repeat constructor; eexists; (split; [|reflexivity]); cbn; tauto.
Qed.
(** A section without final states ends the program, whatever the others have. *)
Theorem C71_empty_section_refuted : exists d, alph_inv0 (d_alpha d) /\ (forall name t, In (name, t) (d_sections d) -> sound (d_alpha d) t /\ acyclic t)
  /\ asked [] [PSymbol (SChar 97)] (txt "a") /\ to_list true (d_alpha d) (d_sections d) (d_letters d) [] [PSymbol (SChar 97)] (txt "a") (txt "a")
  /\ forall fuel, (30 <= fuel)%nat -> lt_paradigm fuel true true [] d (search (txt "a")) = Exit.
Proof.
  exists (mkD [97; 98] oneA [(txt "a-empty", mkT 0 [] [[]]); (txt "main", oneT)]). split; [apply after_inv0|].
  split; [intros name t [E|[E|[]]]; injection E as <- <-; (split; [now apply soundb_sound|now apply forwardb_acyclic])|].
  split; [pattern_asked; change (pattern_text [PSymbol (SChar 97)] ([97] ++ [])); repeat apply pt_cons; constructor; lia|].
  split.
  - exists (txt "main"), oneT, [SChar 97], [SChar 97], 0. split; [right; now left|].
    split; [match goal with |- srel_o _ ?t ?a _ _ _ => apply (srel_run t a [(1, 0)] 1 0 eq_refl); [run|cbn; tauto] end|].
    split; [repeat constructor|repeat split; discriminate].
  - intros fuel Hf. do 30 (destruct fuel as [|fuel]; [lia|]). vm_compute. reflexivity.
Qed.
(** -e TAG does not keep paths containing TAG from being listed: a tag of the pattern is looked
    for all the same, and without its brackets the TAG excludes nothing. *)
Definition tagT : transducer := mkT 0 [(2%nat, 0)] [[(1, (1%nat, 0))]; [(2, (2%nat, 0))]; []].
Theorem C71_exclude_refuted : exists d, alph_inv0 (d_alpha d) /\ searchable true (d_alpha d) (d_sections d) (d_letters d)
  /\ lt_paradigm 30 true true [txt "<n>"] d (search (txt "a<n>")) = Ok (line_text (txt "a<n>", txt "a"))
  /\ lt_paradigm 30 true true [txt "<n>"] d (search (txt "a<*>")) = Ok []
  /\ lt_paradigm 30 true true [txt "n"] d (search (txt "a<*>")) = Ok (line_text (txt "a<n>", txt "a")).
Proof.
  exists (mkD [97; 98] oneA [(txt "main", tagT)]). split; [apply after_inv0|]. split; [now apply searchableb_searchable|].
  split; [vm_compute; reflexivity|]. split; vm_compute; reflexivity.
Qed.

Print Assumptions C71_pattern.
Print Assumptions C71_listing.
Print Assumptions C71_plus_refuted.
Print Assumptions C71_unknown_tag_refuted.
Print Assumptions C71_star_refuted.
Print Assumptions C71_wide_refuted.
Print Assumptions C71_loop_refuted.
Print Assumptions C71_empty_section_refuted.
Print Assumptions C71_exclude_refuted.
