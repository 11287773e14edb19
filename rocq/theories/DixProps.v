(** C73: a dictionary document compiles to the dictionary it describes. *)
From Coq Require String Ascii.
From Verif Require Import Base AlphabetModel AlphabetProofs AlphabetProps TransducerModel TransducerSpec TransducerProofs AutomataProps StringModel ExpanderModel
  EntryFilterModel CompilerModel CompilerSpec CompilerProofs CompilerProps UnifiedModel ValidProps DixModel DixSpec DixProofs.
From Verif Require StreamProps InputProps EntryFilterProps.
Import String.StringSyntax.

(** The options the theorems are for: not unified, no warnings, sections not split. *)
Definition usual (q : request) : Prop := q_unified q = false /\ q_verbose q = false /\ q_max q <= 0.
(** The alphabet of a document before its paradigms and sections *)
Notation alphabet_of separable hs := (after (map OpInclude (declared separable hs))).
Lemma alphabet_of_eq : forall l, after (map OpInclude l) = include_all l new_alphabet.
Proof. intros l. unfold aruns, include_all. generalize new_alphabet. induction l as [|x l IH]; intros a; [reflexivity|]. cbn [map fold_left arun]. apply IH. Qed.

(** * The document is read as the dictionary it describes *)
(** Whatever layout, comments and attributes besides: the paradigms, sections and entries of
    the dictionary reach the compiler, with the entries selected, in order, as the tokens they
    stand for; and the letters are those of the alphabet element. *)
Theorem C73_reading : forall q separable hs bs ns v items, usual q ->
  document (q_isspace q) separable (hs ++ bs) ns -> Forall is_head hs -> letters_of (q_isspace q) hs v ->
  let a0 := alphabet_of separable hs in
  let code s := symbol_code s a0 in
  Forall (top_known (q_opts q) (q_lr q) separable (declared separable hs)) bs ->
  compiled_tops (o_keep (q_opts q)) code (q_stod q) (q_opts q) (q_lr q) bs items ->
  let s := mkSet (q_lr q) (q_acx q) (if separable then Some (code (txt "<ANY_TAG>"), code (txt "<ANY_CHAR>")) else None) in
  (let! st := readNodes q ns in Ok (r_comp st, r_letters st)) = let! c := procs s (dict_events items) (new_compiler a0) in Ok (c, v).
Proof.
  intros q separable hs bs ns v items (Q1 & Q2 & Q3) D Hh L a0 code K C s.
  pose proof (document_read q separable hs bs ns v items D Hh Q1 Q2 Q3 L) as R. cbn zeta in R. rewrite <- alphabet_of_eq in R. fold a0 in R.
  destruct (R K C) as (n & E). rewrite E.
  assert (Es : settings_of q (if separable then Some (lsx_codes a0) else None) = s) by (unfold s; destruct separable; reflexivity).
  rewrite Es. destruct (procs s (dict_events items) (new_compiler a0)); reflexivity.
Qed.

(** * From the document to the words of the compiled sections *)
Theorem C73_document : forall q hs bs ns v, usual q -> q_acx q = [] ->
  document (q_isspace q) false (hs ++ bs) ns -> Forall is_head hs -> letters_of (q_isspace q) hs v ->
  Forall (top_known (q_opts q) (q_lr q) false (declared false hs)) bs ->
  exists code, (forall x, In x (declared false hs) -> code x < 0)
    /\ (forall x y, In x (declared false hs) -> In y (declared false hs) -> code x = code y -> x = y)
    /\ forall items, compiled_tops (o_keep (q_opts q)) code (q_stod q) (q_opts q) (q_lr q) bs items ->
       dict_ok (q_lr q) (fun _ => no_words) [] items ->
       (exists a m, lt_comp q ns = Ok (v, a, m)
          /\ (forall x, In x (declared false hs) -> getSymbol (code x) a = Ok x)
          /\ NoDup (map fst m)
          /\ (forall name t, In (name, t) m -> forall u, lang t 0 u <->
                exists w, section_set (q_lr q) (fun _ => no_words) items name w /\ Forall2 (fun tag p => decode tag a = Ok p) u w)
          /\ (forall name w, section_set (q_lr q) (fun _ => no_words) items name w ->
                exists t u, In (name, t) m /\ lang t 0 u /\ Forall2 (fun tag p => decode tag a = Ok p) u w))
       \/ (lt_comp q ns = Exit /\ exists name w, section_set (q_lr q) (fun _ => no_words) items name w /\ unfit w).
Proof.
  intros q hs bs ns v U Hx D Hh L K. set (a0 := alphabet_of false hs). exists (fun s => symbol_code s a0).
  assert (Df : forall x, In x (declared false hs) -> isSymbolDefined x a0 = true).
  { intros x H. apply C08_defined_iff_included. now apply in_map. }
  assert (Inv := after_inv (map OpInclude (declared false hs))). fold a0 in Inv.
  assert (Nth : forall x, In x (declared false hs) -> exists i, nth_error (slexicinv a0) i = Some x).
  { intros x H. apply Df in H. apply defined_iff in H; [|apply Inv]. now apply In_nth_error. }
  split; [|split].
  - intros x H. destruct (Nth x H) as (i & Hi). rewrite (proj1 (symbol_code_nth _ x i (proj1 Inv) Hi)). unfold tag_of. lia.
  - intros x y Hx' Hy E. exact (C08_tag_codes_distinct _ x y (Df x Hx') (Df y Hy) E).
  - intros items C Ho. set (s := mkSet (q_lr q) (q_acx q) None).
    assert (E : lt_comp q ns = let! (a, m) := parse s a0 (dict_events items) in Ok (v, a, m)).
    { destruct U as (U1 & U2 & U3). pose proof (document_read q false hs bs ns v items D Hh U1 U2 U3 L) as R. cbn zeta in R. rewrite <- alphabet_of_eq in R. fold a0 in R.
      destruct (R K C) as (n & E). change (settings_of q None) with s in E.
      unfold lt_comp, parse, compile. rewrite E. destruct (procs s (dict_events items) (new_compiler a0)) as [c| | | |]; try reflexivity. cbn [obind r_comp r_lsx r_letters].
      destruct (minimize_all (c_secs c)) as [m| | | |]; try reflexivity. cbn [obind]. destruct (valid (c_alph c) m) as [[|]| | | |]; reflexivity. }
    rewrite E. destruct (C58_refused (map OpInclude (declared false hs)) s items Hx eq_refl Ho) as [([a m] & P & Cm)|[P Hu]]; fold a0 in P.
    + left. exists a, m. rewrite P. split; [reflexivity|]. split.
      { intros x H. destruct (Nth x H) as (i & Hi). destruct (compile_ok s a0 items Hx eq_refl Inv Ho) as (a' & m' & E' & Ha' & X & _).
        fold a0 in Cm. assert (a' = a) as -> by congruence.
        rewrite (proj1 (symbol_code_nth _ x i (proj1 Inv) Hi)).
        destruct (symbol_code_nth a x i (proj1 Ha') (proj1 (extends_nth _ _ X) i x Hi)) as (_ & _ & G). exact G. }
      destruct (C32_sections (map OpInclude (declared false hs)) s items Hx eq_refl Ho) as (a' & m' & E' & N & _ & H1 & H2).
      assert (a' = a /\ m' = m) as [-> ->] by (split; congruence). split; [exact N|]. split; [|exact H2]. intros name t Hin. apply (H1 name t Hin).
    + right. rewrite P. split; [reflexivity|exact Hu].
Qed.

(** Two documents of the same dictionary have the same result: spaces, line breaks, comments,
    other attributes and the order of attributes make no difference. *)
Theorem C73_layout : forall q separable hs bs ns ns' v items, usual q ->
  document (q_isspace q) separable (hs ++ bs) ns -> document (q_isspace q) separable (hs ++ bs) ns' ->
  Forall is_head hs -> letters_of (q_isspace q) hs v ->
  Forall (top_known (q_opts q) (q_lr q) separable (declared separable hs)) bs ->
  compiled_tops (o_keep (q_opts q)) (fun s => symbol_code s (alphabet_of separable hs)) (q_stod q) (q_opts q) (q_lr q) bs items ->
  lt_comp q ns = lt_comp q ns'.
Proof.
  intros q separable hs bs ns ns' v items (Q1 & Q2 & Q3) D D' Hh L K C. rewrite alphabet_of_eq in C.
  destruct (document_read q separable hs bs ns v items D Hh Q1 Q2 Q3 L K C) as (n & E).
  destruct (document_read q separable hs bs ns' v items D' Hh Q1 Q2 Q3 L K C) as (n' & E').
  unfold lt_comp. rewrite E, E'. destruct (procs _ (dict_events items) _) as [c| | | |]; reflexivity.
Qed.

(** * A document *)
Definition white (c : Z) : bool := (c =? 32) || (c =? 10) || (c =? 9).
Definition no_filters : options := mkOpt [] [] [] [] false.
(** lt-comp lr, or rl; the only weight understood is 5. *)
Definition five (w : ustr) : outcome Z := if ustr_eq_dec w (txt "5") then Ok 5 else Throw.
Definition comp (lr fails : bool) : request := mkReq lr false no_filters false [] 0 white five fails.
Definition line : xnode := text [10; 32; 32].
Definition n_is (v : ustr) : list (ustr * ustr) := [(txt "n", v)].
Definition identity (t : list Z) : list xnode := [opening (txt "i") []; text t; closing (txt "i") []].
Definition entry (a : list (ustr * ustr)) (ns : list xnode) : list xnode := opening (txt "e") a :: ns ++ [closing (txt "e") a].
Definition main_section : list (ustr * ustr) := [(txt "id", txt "main"); (txt "type", txt "standard")].

(** A paradigm with an entry for each direction and a section with two entries, the second
    ignored *)
Definition sample_entry1 : list xnode :=
  entry [(txt "r", txt "LR")]
    ([opening (txt "p") []; line; opening (txt "l") []; text (txt "s"); closing (txt "l") []; line; opening (txt "r") [];
      alone (txt "s") (n_is (txt "n")); alone (txt "s") (n_is (txt "pl")); closing (txt "r") []; line; closing (txt "p") []]).
Definition sample_entry2 : list xnode :=
  entry [(txt "r", txt "RL")]
    ([opening (txt "p") []; alone (txt "l") []; opening (txt "r") []; alone (txt "s") (n_is (txt "n")); closing (txt "r") []; closing (txt "p") []]).
Definition sample_entry3 : list xnode :=
  entry [(txt "lm", txt "x y"); (txt "w", txt "5")]
    ([line; opening (txt "i") []; text (txt "x"); alone (txt "b") []; text (txt "y"); closing (txt "i") []; comment (txt "the plural"); line; alone (txt "par") (n_is (txt "s")); line]).
Definition sample_entry4 : list xnode := entry [(txt "i", txt "yes")] (identity (txt "z")).
Definition sample_nodes : list xnode :=
  [comment (txt "a sample")] ++ opening (txt "dictionary") [] ::
  ([line; opening (txt "alphabet") []; text (txt "xyz"); closing (txt "alphabet") []] ++
   [line; opening (txt "sdefs") []; line; alone (txt "sdef") (n_is (txt "n")); line; alone (txt "sdef") ((txt "c", txt "plural") :: n_is (txt "pl")); line; closing (txt "sdefs") []] ++
   [line; opening (txt "pardefs") []; line; opening (txt "pardef") (n_is (txt "s"))] ++
   line :: sample_entry1 ++ line :: sample_entry2 ++ [line; closing (txt "pardef") []; line; closing (txt "pardefs") []] ++
   [line; comment (txt "words"); opening (txt "section") main_section] ++ line :: sample_entry3 ++ line :: sample_entry4 ++
   [line; closing (txt "section") []; line]) ++ closing (txt "dictionary") [] :: [line].
Definition no_attrs : attributes := mkAttr [] [] [] [] [] [].
Definition sample_head : list top := [Alphabet (txt "xyz"); Symbols [txt "n"; txt "pl"]].
Definition sample_body : list top :=
  [Pardefs [(txt "s", [mkEntry (mkAttr (txt "LR") [] [] [] [] []) [] [Sides [One (Letters (txt "s"))] [One (Symbol (txt "n")); One (Symbol (txt "pl"))]];
                       mkEntry (mkAttr (txt "RL") [] [] [] [] []) [] [Sides [] [One (Symbol (txt "n"))]]])];
   Section_ (txt "main") (txt "standard")
     [mkEntry no_attrs (txt "5") [Both [One (Letters (txt "x")); One Space; One (Letters (txt "y"))]; Use (txt "s")];
      mkEntry (mkAttr [] (txt "yes") [] [] [] []) [] [Both [One (Letters (txt "z"))]]]].
Ltac attr := split; [repeat (constructor; [cbn; intuition discriminate|]); constructor|first [left; cbn; tauto|right; split; [reflexivity|cbn; intuition discriminate]]].
Lemma line_gap : gap white [line].
Proof. constructor; [|constructor]. exists [10; 32; 32]. left. split; [reflexivity|]. split; repeat constructor; try (intros [? ?]; lia); cbn; lia. Qed.
Lemma line_loose : loose [line].
Proof. constructor; [|constructor]. exists [10; 32; 32]. now left. Qed.
Lemma no_gap : gap white []. Proof. constructor. Qed.
Lemma no_loose : loose []. Proof. constructor. Qed.
Lemma single : forall {X} (between : list xnode -> Prop) (shape : X -> list xnode -> Prop) x ns, between [] -> shape x ns -> spread between shape [x] ns.
Proof. intros X bt sh x ns B S. rewrite <- (app_nil_r ns). exact (sp_item bt sh [] x ns [] [] B S (sp_end bt sh [] B)). Qed.
(** The nodes are a document of this dictionary *)
Example C73_sample : document white false (sample_head ++ sample_body) sample_nodes.
Proof.
  assert (W := line_gap). assert (V := line_loose). assert (W0 := no_gap). assert (V0 := no_loose).
  unfold sample_nodes. apply (dn_document white false [comment (txt "a sample")] [] [] _ _ [] [] [line]).
  - constructor; [|constructor]. eexists. now right.
  - exact V.
  - attr.
  - split; [discriminate|]. intros [X|X]; discriminate.
  - attr.
  - intros [X|X]; discriminate.
  - apply (sp_item loose (top_nodes white) [line] (Alphabet (txt "xyz")) [opening (txt "alphabet") []; text (txt "xyz"); closing (txt "alphabet") []]); [exact V| |].
    { apply tn_alphabet; [discriminate|]. repeat constructor; cbn; try lia; intros [? ?]; lia. }
    apply (sp_item loose (top_nodes white) [line] (Symbols [txt "n"; txt "pl"])
      (opening (txt "sdefs") [] :: ([line; alone (txt "sdef") (n_is (txt "n")); line; alone (txt "sdef") ((txt "c", txt "plural") :: n_is (txt "pl")); line] ++ [closing (txt "sdefs") []]))); [exact V| |].
    { apply tn_symbols. apply (sp_item loose symbol_nodes [line] (txt "n") [alone (txt "sdef") (n_is (txt "n"))]); [exact V|constructor; attr|].
      apply (sp_item loose symbol_nodes [line] (txt "pl") [alone (txt "sdef") ((txt "c", txt "plural") :: n_is (txt "pl"))]); [exact V|constructor; attr|]. now apply sp_end. }
    apply (sp_item loose (top_nodes white) [line] (hd (Alphabet []) sample_body)
      (opening (txt "pardefs") [] :: ([line; opening (txt "pardef") (n_is (txt "s"))] ++ (line :: sample_entry1 ++ line :: sample_entry2 ++ [line]) ++ [closing (txt "pardef") []; line]) ++ [closing (txt "pardefs") []])); [exact V| |].
    { apply tn_pardefs. apply (sp_item loose (pardef_nodes white) [line] _ (opening (txt "pardef") (n_is (txt "s")) :: (line :: sample_entry1 ++ line :: sample_entry2 ++ [line]) ++ [closing (txt "pardef") []]) [] [line]); [exact V| |now apply sp_end].
      apply dn_pardef; [attr|]. apply (sp_item loose (entry_nodes white) [line] _ sample_entry1); [exact V| |].
      - apply dn_entry; [repeat (split; [attr|]); attr|]. apply single; [exact W0|].
        apply (en_sides white [] [] [One (Letters (txt "s"))] [One (Symbol (txt "n")); One (Symbol (txt "pl"))] [line] [opening (txt "l") []; text (txt "s"); closing (txt "l") []] [line]
          [opening (txt "r") []; alone (txt "s") (n_is (txt "n")); alone (txt "s") (n_is (txt "pl")); closing (txt "r") []] [line]); auto.
        + apply (sn_parts (txt "l") [] [] _ [[text (txt "s")]]). constructor; [|constructor]. constructor. constructor.
        + apply (sn_parts (txt "r") [] [] _ [[alone (txt "s") (n_is (txt "n"))]; [alone (txt "s") (n_is (txt "pl"))]]). constructor; [|constructor; [|constructor]]; constructor; constructor; attr.
      - apply (sp_item loose (entry_nodes white) [line] _ sample_entry2 [] [line]); [exact V| |now apply sp_end].
        apply dn_entry; [repeat (split; [attr|]); attr|]. apply single; [exact W0|].
        apply (en_sides white [] [] [] [One (Symbol (txt "n"))] [] [alone (txt "l") []] [] [opening (txt "r") []; alone (txt "s") (n_is (txt "n")); closing (txt "r") []] []); auto.
        + constructor.
        + apply (sn_parts (txt "r") [] [] _ [[alone (txt "s") (n_is (txt "n"))]]). constructor; [|constructor]. constructor. constructor. attr. }
    apply (sp_item loose (top_nodes white) [line; comment (txt "words")] _ (opening (txt "section") main_section :: (line :: sample_entry3 ++ line :: sample_entry4 ++ [line]) ++ [closing (txt "section") []]) [] [line]);
      [|apply tn_section; [attr|attr|discriminate|discriminate|]|now apply sp_end].
    { constructor; [exists [10; 32; 32]; now left|]. constructor; [eexists; now right|constructor]. }
    apply (sp_item loose (entry_nodes white) [line] _ sample_entry3); [exact V| |].
    + apply dn_entry; [repeat (split; [attr|]); attr|].
      apply (sp_item (gap white) (element_nodes white) [line] _ [opening (txt "i") []; text (txt "x"); alone (txt "b") []; text (txt "y"); closing (txt "i") []]); [exact W| |].
      * constructor. apply (sn_parts (txt "i") [] [] _ [[text (txt "x")]; [alone (txt "b") []]; [text (txt "y")]]). repeat (constructor; [constructor; constructor|]). constructor.
      * apply (sp_item (gap white) (element_nodes white) [comment (txt "the plural"); line] _ [alone (txt "par") (n_is (txt "s"))] [] [line]); [|constructor; attr|now apply sp_end].
        constructor; [eexists; now right|exact W].
    + apply (sp_item loose (entry_nodes white) [line] _ sample_entry4 [] [line]); [exact V| |now apply sp_end].
      apply dn_entry; [repeat (split; [attr|]); attr|]. apply single; [exact W0|].
      constructor. apply (sn_parts (txt "i") [] [] _ [[text (txt "z")]]). constructor; [constructor; constructor|constructor].
Qed.
(** and both directions compile to what it says: x y + s<n><pl> with the weight 5, and x y + <n>. *)
Example C73_sample_lr : exists a t, lt_comp (comp true false) sample_nodes = Ok (txt "xyz", a, [(txt "main@standard", t)])
  /\ spairinv a = [(0, 0); (115, -1); (0, -2); (120, 120); (32, 32); (121, 121)]
  /\ getSymbol (-1) a = Ok (txt "<n>") /\ getSymbol (-2) a = Ok (txt "<pl>") /\ wlang t 0 [3; 4; 5; 1; 2] 5.
Proof.
  eexists _, _. split; [vm_compute; reflexivity|]. split; [reflexivity|]. split; [reflexivity|]. split; [reflexivity|].
  exists [(3, 0); (4, 0); (5, 5); (1, 0); (2, 0)], 0. split; [exists 5%nat; split; [run|vm_compute; tauto]|split; reflexivity].
Qed.
Example C73_sample_rl : exists a t, lt_comp (comp false false) sample_nodes = Ok (txt "xyz", a, [(txt "main@standard", t)])
  /\ spairinv a = [(0, 0); (-1, 0); (120, 120); (32, 32); (121, 121)] /\ lang t 0 [2; 3; 4; 1].
Proof. eexists _, _. split; [vm_compute; reflexivity|]. split; [reflexivity|]. exists 5, [(2, 0); (3, 0); (4, 5); (1, 0)], 0.
  split; [exists 4%nat; split; [run|vm_compute; tauto]|split; reflexivity].
Qed.
(** The theorem applies to it. *)
Example C73_sample_known : letters_of white sample_head (txt "xyz")
  /\ Forall (top_known no_filters true false (declared false sample_head)) sample_body.
Proof.
  split.
  - apply (lo_last white [] (txt "xyz") [Symbols [txt "n"; txt "pl"]]); [intros t [H|[]]; discriminate H|].
    right. split; [|vm_compute; reflexivity]. intros [_ B]. pose proof (Forall_inv B) as B1. discriminate B1.
  - assert (N : In (bracketed (txt "n")) (declared false sample_head)) by (left; vm_compute; reflexivity).
    assert (P : In (bracketed (txt "pl")) (declared false sample_head)) by (right; left; vm_compute; reflexivity).
    set (d := declared false sample_head) in *. clearbody d.
    constructor; [|constructor; [|constructor]].
    + constructor; [|constructor]. constructor; [|constructor; [|constructor]]; intros _; constructor; try constructor.
      * repeat constructor.
      * constructor; [exact N|]. constructor; [exact P|constructor].
      * constructor.
      * constructor; [exact N|constructor].
    + constructor; [|constructor; [|constructor]]; intros _; repeat (constructor; [try exact I; repeat constructor|]); constructor.
Qed.

(** * The end of a separable dictionary *)
(** Every path of a compiled section is accepted as it is, and with <$> after it. *)
Theorem C73_separable : forall q hs bs ns v items a1 m1 v' a m, usual q ->
  document (q_isspace q) true (hs ++ bs) ns -> Forall is_head hs -> letters_of (q_isspace q) hs v ->
  let a0 := alphabet_of true hs in
  let code s := symbol_code s a0 in
  Forall (top_known (q_opts q) (q_lr q) true (declared true hs)) bs ->
  compiled_tops (o_keep (q_opts q)) code (q_stod q) (q_opts q) (q_lr q) bs items ->
  let s := mkSet (q_lr q) (q_acx q) (Some (code (txt "<ANY_TAG>"), code (txt "<ANY_CHAR>"))) in
  compile s a0 (dict_events items) = Ok (a1, m1) -> lt_comp q ns = Ok (v', a, m) ->
  let e := fst (pair_code (code (txt "<$>"), code (txt "<$>")) a1) in
  v' = v /\ Forall2 (fun x y => fst y = fst x /\ forall l f, accepts_from (snd x) (initial (snd x)) l f ->
    accepts_from (snd y) (initial (snd y)) l f /\ exists w g, accepts_from (snd y) (initial (snd y)) (l ++ [(e, w)]) g) m1 m.
Proof.
  intros q hs bs ns v items a1 m1 v' a m (Q1 & Q2 & Q3) D Hh L a0 code K C s E1 E2 e.
  pose proof (document_read q true hs bs ns v items D Hh Q1 Q2 Q3 L) as R. cbn zeta in R. rewrite <- alphabet_of_eq in R. fold a0 in R.
  destruct (R K C) as (n & E). unfold lt_comp in E2. rewrite E in E2. unfold compile in E1.
  change (settings_of q (Some (lsx_codes a0))) with s in E2.
  destruct (procs s (dict_events items) (new_compiler a0)) as [c| | | |]; try discriminate E1. cbn [obind r_comp r_lsx r_letters] in *.
  destruct (minimize_all (c_secs c)) as [m0| | | |]; try discriminate E1. cbn [obind] in *. injection E1 as <- <-.
  change (k_wb (lsx_codes a0)) with (code (txt "<$>")) in E2. unfold e.
  destruct (pair_code (code (txt "<$>"), code (txt "<$>")) (c_alph c)) as [e1 a2]. cbn [fst].
  destruct (closeSections m0 e1) as [m2| | | |] eqn:Em; try discriminate E2. cbn [obind] in E2.
  destruct (valid a2 m2) as [[|]| | | |]; try discriminate E2. cbn [obind] in E2. injection E2 as <- <- <-.
  split; [reflexivity|]. exact (closeSections_accepts _ _ _ Em).
Qed.
Definition doc (body : list xnode) : list xnode := opening (txt "dictionary") [] :: body ++ [closing (txt "dictionary") []].
Definition sect (es : list xnode) : list xnode := opening (txt "section") main_section :: es ++ [closing (txt "section") []].
Definition simple (t : list Z) : list xnode := entry [] (identity t).
Definition separable_doc (body : list xnode) : list xnode :=
  opening (txt "dictionary") [(txt "type", txt "separable")] :: body ++ [closing (txt "dictionary") [(txt "type", txt "separable")]].
Example C73_separable_word : exists a t, lt_comp (comp true false) (separable_doc (sect (simple (txt "a")))) = Ok ([], a, [(txt "main@standard", t)])
  /\ exists x e, decode x a = Ok (97, 97) /\ decode e a = Ok (-3, -3) /\ getSymbol (-3) a = Ok (txt "<$>") /\ lang t 0 [x] /\ lang t 0 [x; e].
Proof.
  eexists _, _. split; [vm_compute; reflexivity|]. exists 1, 8. split; [reflexivity|]. split; [reflexivity|]. split; [reflexivity|]. split.
  - accepted [(1, 0)] 1%nat.
  - accepted [(1, 0); (8, 0)] 2%nat.
Qed.
(** Other words may be accepted too: of a, a<d/>b and cb, the states after a<d/> and after c are
    one after minimising, and with it becoming final so is c. *)
Definition closing_entries : list xnode :=
  simple (txt "a") ++ entry [] [opening (txt "i") []; text (txt "a"); alone (txt "d") []; text (txt "b"); closing (txt "i") []] ++ simple (txt "cb").
Theorem C73_closing_refuted : exists a t, lt_comp (comp true false) (separable_doc (sect closing_entries)) = Ok ([], a, [(txt "main@standard", t)])
  /\ exists c, decode c a = Ok (99, 99) /\ lang t 0 [c].
Proof. eexists _, _. split; [vm_compute; reflexivity|]. exists 10. split; [reflexivity|]. accepted [(10, 0)] 2%nat. Qed.

(** * Documents that are not read as they are written *)
(** A file that breaks off between two entries: the parse error is reported, and the entries up
    to there are compiled and written all the same. *)
Definition broken_off : list xnode := opening (txt "dictionary") [] :: opening (txt "section") main_section :: simple (txt "a").
Theorem C73_truncated_refuted : q_fails (comp true true) = true
  /\ exists a t, lt_comp (comp true true) broken_off = Ok ([], a, [(txt "main@standard", t)]) /\ lang t 0 [1].
Proof. split; [reflexivity|]. eexists _, _. split; [vm_compute; reflexivity|]. accepted [(1, 0)] 1%nat. Qed.
(** Within an entry it is refused. *)
Example C73_truncated_entry : lt_comp (comp true true) (broken_off ++ [opening (txt "e") []]) = Exit.
Proof. vm_compute. reflexivity. Qed.
(** An entry <e r="RL"/> is none for lt-comp lr; but looking for its end, the compiler takes
    the start of the next entry, and refuses the document. *)
Theorem C73_empty_entry_refuted : lt_comp (comp true false) (doc (sect (alone (txt "e") [(txt "r", txt "RL")] :: simple (txt "a")))) = Exit
  /\ lt_comp (comp true false) (doc (sect (entry [(txt "r", txt "RL")] [] ++ simple (txt "a")))) = lt_comp (comp true false) (doc (sect (simple (txt "a")))).
Proof. split; vm_compute; reflexivity. Qed.
(** <e/> is passed over, <e></e> refused. *)
Example C73_empty_entries : lt_comp (comp true false) (doc (sect (alone (txt "e") [] :: simple (txt "a")))) = lt_comp (comp true false) (doc (sect (simple (txt "a"))))
  /\ lt_comp (comp true false) (doc (sect (entry [] [] ++ simple (txt "a")))) = Exit.
Proof. split; vm_compute; reflexivity. Qed.
(** After <pardef n="x"/> everything is part of that paradigm: the section is lost. *)
Theorem C73_pardef_refuted : exists a,
  lt_comp (comp true false) (doc (opening (txt "pardefs") [] :: alone (txt "pardef") (n_is (txt "x")) :: closing (txt "pardefs") [] :: sect (simple (txt "a")))) = Ok ([], a, []).
Proof. eexists. vm_compute. reflexivity. Qed.
(** Of the letters only those before a comment count. *)
Theorem C73_alphabet_comment_refuted : exists a m,
  lt_comp (comp true false) (doc (opening (txt "alphabet") [] :: text (txt "ab") :: comment (txt "and") :: text (txt "cd") :: closing (txt "alphabet") [] :: sect (simple (txt "a"))))
  = Ok (txt "ab", a, m).
Proof. eexists _, _. vm_compute. reflexivity. Qed.
(** After <alphabet/> the next node is taken for the letters, be it a comment, *)
Theorem C73_alphabet_alone_refuted : exists a m,
  lt_comp (comp true false) (doc (alone (txt "alphabet") [] :: comment (txt "words") :: sect (simple (txt "a")))) = Ok (txt "words", a, m).
Proof. eexists _, _. vm_compute. reflexivity. Qed.
(** or the start of a section, which then has no name and no type. *)
Example C73_alphabet_alone_section : exists a t,
  lt_comp (comp true false) (doc (alone (txt "alphabet") [] :: sect (simple (txt "a")))) = Ok ([], a, [([], t)]).
Proof. eexists _, _. vm_compute. reflexivity. Qed.
(** A comment within a side is refused. *)
Theorem C73_comment_refuted :
  lt_comp (comp true false) (doc (sect (entry [] [opening (txt "i") []; text (txt "a"); comment (txt "x"); closing (txt "i") []]))) = Exit.
Proof. vm_compute. reflexivity. Qed.
(** <par n="x"></par> instead of <par n="x"/>: refused, or if the reader gives the attributes at
    the end of an element too, the paradigm is inserted twice. *)
Definition par_pair (at_ : list (ustr * ustr)) : list xnode :=
  doc (opening (txt "pardefs") [] :: opening (txt "pardef") (n_is (txt "x")) :: simple (txt "a") ++ closing (txt "pardef") [] :: closing (txt "pardefs") [] ::
    sect (entry [] [opening (txt "par") (n_is (txt "x")); closing (txt "par") at_])).
Theorem C73_par_pair_refuted : lt_comp (comp true false) (par_pair []) = Exit
  /\ exists a t, lt_comp (comp true false) (par_pair (n_is (txt "x"))) = Ok ([], a, [(txt "main@standard", t)])
       /\ decode 1 a = Ok (97, 97) /\ lang t 0 [1; 1].
Proof.
  split; [vm_compute; reflexivity|]. eexists _, _. split; [vm_compute; reflexivity|]. split; [reflexivity|]. accepted [(1, 0); (1, 0)] 2%nat.
Qed.
(** With warnings (-V) an entry of a section with an empty side reads the front of an empty
    vector; without, it compiles. *)
Definition verbose (q : request) : request := mkReq (q_lr q) (q_unified q) (q_opts q) true (q_acx q) (q_max q) (q_isspace q) (q_stod q) (q_fails q).
Definition empty_side : list xnode :=
  doc (sect (entry [] ([opening (txt "p") []; alone (txt "l") []; opening (txt "r") []; text (txt "a"); closing (txt "r") []; closing (txt "p") []] ++ identity (txt "b")))).
Theorem C73_verbose_refuted : lt_comp (verbose (comp true false)) empty_side = UB /\ exists r, lt_comp (comp true false) empty_side = Ok r.
Proof. split; [vm_compute; reflexivity|]. eexists. vm_compute. reflexivity. Qed.
(** Text between entries is passed over. *)
Example C73_stray : lt_comp (comp true false) (doc (sect (text (txt "stray") :: simple (txt "a")))) = lt_comp (comp true false) (doc (sect (simple (txt "a")))).
Proof. vm_compute. reflexivity. Qed.
(** <b>, <m>, <j>, <a> and <s> that are not empty, elements that are none and symbols that were
    not declared are refused, on every side. *)
Definition side_with (n : xnode) (t u : list Z) : list xnode := [text t; n; text u].
Definition three_places (ns : list xnode) : list (list xnode) :=
  [opening (txt "i") [] :: ns ++ [closing (txt "i") []];
   opening (txt "p") [] :: opening (txt "l") [] :: ns ++ [closing (txt "l") []; alone (txt "r") []; closing (txt "p") []];
   opening (txt "p") [] :: alone (txt "l") [] :: opening (txt "r") [] :: ns ++ [closing (txt "r") []; closing (txt "p") []]].
Theorem C73_refused : forall lr fails t u a,
  let refused (n : xnode) := Forall (fun els => lt_comp (comp lr fails) (doc (opening (txt "sdefs") [] :: alone (txt "sdef") (n_is (txt "n")) :: closing (txt "sdefs") []
                                       :: sect (entry [] els))) = Exit) (three_places (side_with n t u)) in
  Forall (fun x => refused (opening x a)) [txt "b"; txt "m"; txt "j"; txt "a"; txt "z"] /\ refused (opening (txt "s") (n_is (txt "n")))
  /\ refused (alone (txt "s") (n_is (txt "m"))) /\ refused (alone (txt "t") a) /\ refused (alone (txt "d") a).
Proof.
  intros lr fails t u a refused. assert (K : forall n, Forall (fun els => lt_comp (comp lr fails) (doc (opening (txt "sdefs") [] :: alone (txt "sdef") (n_is (txt "n")) :: closing (txt "sdefs") []
                                       :: sect (entry [] els))) = Exit) (three_places (side_with n t u)) -> refused n) by (intros n H; exact H).
  clearbody refused. repeat first [apply conj | apply Forall_cons | apply Forall_nil]; apply K; clear K; destruct lr;
    (apply Forall_cons; [vm_compute; reflexivity|]; apply Forall_cons; [vm_compute; reflexivity|]; apply Forall_cons; [vm_compute; reflexivity|]; apply Forall_nil).
Qed.

Print Assumptions C73_reading.
Print Assumptions C73_document.
Print Assumptions C73_layout.
Print Assumptions C73_separable.
Print Assumptions C73_refused.
Print Assumptions C73_closing_refuted.
Print Assumptions C73_truncated_refuted.
Print Assumptions C73_empty_entry_refuted.
Print Assumptions C73_pardef_refuted.
Print Assumptions C73_alphabet_comment_refuted.
Print Assumptions C73_alphabet_alone_refuted.
Print Assumptions C73_comment_refuted.
Print Assumptions C73_par_pair_refuted.
Print Assumptions C73_verbose_refuted.
