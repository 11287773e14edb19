(** What a pattern of lt-paradigm describes, and which words are listed for it.  Uses only the
    representation of transducers and alphabets, and relations on words (ComposeSpec.v). *)
From Verif Require Import Base CompressionModel SerialiserModel AlphabetModel TransducerModel
  TransducerSpec RelabelSpec ComposeSpec TrimSpec.
From Verif Require InputProps.

(** * Patterns *)
Inductive pitem :=
| PLetters                        (* *        any letters *)
| PTags                           (* <*>      any tags *)
| PTagsOf (names : list ustr)     (* <*|a|b>  any of these tags *)
| PTagsBut (names : list ustr)    (* <*-a-b>  any tags but these *)
| POneOf (names : list ustr)      (* <|a|b>   one of these tags *)
| PSymbol (s : symbol).           (* a character or a tag *)
Definition in_brackets (n : ustr) : ustr := 60 :: n ++ [62].
Definition separated (sep : Z) (names : list ustr) : ustr := concat (map (cons sep) names).
Inductive written : pitem -> ustr -> Prop :=
| wr_letters : written PLetters [42]
| wr_tags : written PTags (in_brackets [42])
| wr_of ns : written (PTagsOf ns) (in_brackets (42 :: separated 124 ns))
| wr_but ns : written (PTagsBut ns) (in_brackets (42 :: separated 45 ns))
| wr_one ns : written (POneOf ns) (in_brackets (separated 124 ns))
| wr_tag n : written (PSymbol (STag (in_brackets n))) (in_brackets n)
| wr_char c : c <> 92 -> c <> 60 -> written (PSymbol (SChar c)) [c]
| wr_escaped c : written (PSymbol (SChar c)) [92; c].
Inductive pattern_text : list pitem -> ustr -> Prop :=
| pt_nil : pattern_text [] []
| pt_cons i s is r : written i s -> pattern_text is r -> pattern_text (i :: is) (s ++ r).

(** A word fits a pattern; [exclude] are the tags that a star does not stand for. *)
Inductive fits (letters : list Z) (exclude : list ustr) : list pitem -> list symbol -> Prop :=
| f_nil : fits letters exclude [] []
| f_letters u is v : Forall (fun s => exists c, In c letters /\ s = SChar c) u ->
    fits letters exclude is v -> fits letters exclude (PLetters :: is) (u ++ v)
| f_tags u is v : Forall (fun s => exists m, ~ In m exclude /\ s = STag m) u ->
    fits letters exclude is v -> fits letters exclude (PTags :: is) (u ++ v)
| f_of ns u is v : Forall (fun s => exists n, In n ns /\ s = STag (in_brackets n)) u ->
    fits letters exclude is v -> fits letters exclude (PTagsOf ns :: is) (u ++ v)
| f_but ns u is v : Forall (fun s => exists m, ~ In m exclude /\ ~ In m (map in_brackets ns) /\ s = STag m) u ->
    fits letters exclude is v -> fits letters exclude (PTagsBut ns :: is) (u ++ v)
| f_one ns n is v : In n ns -> fits letters exclude is v ->
    fits letters exclude (POneOf ns :: is) (STag (in_brackets n) :: v)
| f_symbol s is v : fits letters exclude is v -> fits letters exclude (PSymbol s :: is) (s :: v).

(** * Patterns that are understood *)
Definition tag_known (a : alphabet) (n : ustr) : Prop := In n (slexicinv a).
(** Names are not empty and hold no separator, '>' or backslash. *)
Definition names_ok (sep : Z) (ns : list ustr) : Prop :=
  ns <> [] /\ Forall (fun n => n <> [] /\ ~ In sep n /\ ~ In 62 n /\ ~ In 92 n) ns.
Definition item_ok (a : alphabet) (i : pitem) : Prop :=
  match i with
  | PLetters | PTags => True
  | PTagsOf ns => names_ok 124 ns /\ ~ tag_known a (in_brackets (42 :: separated 124 ns))
  | PTagsBut ns => names_ok 45 ns /\ ~ tag_known a (in_brackets (42 :: separated 45 ns))
  | POneOf ns => names_ok 124 ns /\ ~ tag_known a (in_brackets (separated 124 ns))
      /\ exists n, In n ns /\ tag_known a (in_brackets n)
  | PSymbol (STag m) => exists n, m = in_brackets n /\ ~ In 62 n /\ m <> in_brackets [42] /\ tag_known a m
  | PSymbol (SChar c) => 0 < c < 65536 /\ ~ (55296 <= c < 57344) /\ c <> 42
  end.

(** * Lines *)
(** Symbols as text *)
Definition sym_text (s : symbol) : ustr :=
  match s with
  | STag n => n
  | SChar c => if c <? 65536 then [c] else [55296 + (c - 65536) / 1024; 56320 + (c - 65536) mod 1024]
  end.
Definition shown (x : list symbol) : ustr := concat (map sym_text x).
(** A section that can be listed: it has words, its characters are characters, and on the side
    of the tags (the right one of an analyser) is no '+' and no <$>. *)
Definition chars_ok (t : transducer) (a : alphabet) : Prop :=
  forall p b q w x y c, has_arc t p b q w -> as_symbols a b (x, y) -> x = SChar c \/ y = SChar c -> c < 1114112.
Record listable (analyser : bool) (a : alphabet) (t : transducer) : Prop := {
  ls_wf : wf t;
  ls_symbols : symbols_in t a;
  ls_finals : finals t <> [];
  ls_marks : forall s, In s (plus_sym :: separators) -> ~ (if analyser then writes t a s else reads_sym t a s);
  ls_chars : chars_ok t a
}.
(** The line r:l is to be listed for the pattern: a word shown as l whose analysis, compound
    marks aside, fits and is shown as r; neither is empty. *)
Definition to_list (analyser : bool) (a : alphabet) (sections : list (ustr * transducer)) (letters : list Z) (exclude : list ustr)
    (items : list pitem) (r l : ustr) : Prop :=
  exists name t x y c, In (name, t) sections /\ srel_o (negb analyser) t a x y c /\ fits letters exclude items (without_marks y)
    /\ r = shown y /\ l = shown x /\ r <> [] /\ l <> [].
(** Text in the order of its units, lines by their first and then their second half *)
Inductive text_before : ustr -> ustr -> Prop :=
| tb_end c s : text_before [] (c :: s)
| tb_unit c d s u : c < d -> text_before (c :: s) (d :: u)
| tb_same c s u : text_before s u -> text_before (c :: s) (c :: u).
Definition line_order (x y : ustr * ustr) : Prop :=
  text_before (fst x) (fst y) \/ (fst x = fst y /\ text_before (snd x) (snd y)).
Definition line_text (x : ustr * ustr) : ustr := fst x ++ 58 :: snd x ++ [10].
(** The lines for one pattern *)
Definition listing (analyser sorted : bool) (a : alphabet) (sections : list (ustr * transducer)) (letters : list Z) (exclude : list ustr)
    (items : list pitem) (lines : list (ustr * ustr)) : Prop :=
  (sorted = true -> StronglySorted line_order lines)
  /\ (forall r l, In (r, l) lines -> to_list analyser a sections letters exclude items r l)
  /\ ((forall name t, In (name, t) sections -> acyclic t) -> forall r l, to_list analyser a sections letters exclude items r l -> In (r, l) lines).

(** * Input and output *)
(** Patterns each ended by a line break or a zero, and a last one at the end of the text *)
Inductive asked : list (list pitem * Z) -> list pitem -> list Z -> Prop :=
| asked_last items u : pattern_text items (InputProps.utf16_text u) -> (forall c, In c u -> c <> 10 /\ c <> 0 /\ c <> 65535) -> asked [] items u
| asked_more items u e more last text : pattern_text items (InputProps.utf16_text u) -> (forall c, In c u -> c <> 10 /\ c <> 0 /\ c <> 65535) ->
    e = 10 \/ e = 0 -> asked more last text -> asked ((items, e) :: more) last (u ++ e :: text).
(** For each the lines, then the character that ended it *)
Inductive answer (lists : list pitem -> list (ustr * ustr) -> Prop) : list (list pitem * Z) -> list pitem -> ustr -> Prop :=
| answer_last items lines : lists items lines -> answer lists [] items (concat (map line_text lines))
| answer_more items lines e more last out : lists items lines -> answer lists more last out ->
    answer lists ((items, e) :: more) last (concat (map line_text lines) ++ e :: out).

(** A dictionary whose patterns are understood *)
Record searchable (analyser : bool) (a : alphabet) (sections : list (ustr * transducer)) (letters : list Z) : Prop := {
  sr_sections : forall name t, In (name, t) sections -> listable analyser a t;
  sr_letters : forall c, In c letters -> 0 < c;
  sr_char : ~ tag_known a w_any_char;
  sr_tag : ~ tag_known a w_any_tag;
  sr_names : forall n, tag_known a n -> ~ In 0 n
}.
