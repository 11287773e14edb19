(** What trimming an analyser by a bilingual dictionary means, on words of symbols.  Uses only
    the representation of transducers and alphabets, and relations on words (ComposeSpec.v). *)
From Verif Require Import Base CompressionModel SerialiserModel AlphabetModel TransducerModel
  TransducerSpec RelabelSpec ComposeSpec.

(** '+' joins the parts of an analysis; '#' separates the inflected head from what follows. *)
Definition plus_sym : symbol := SChar 43.
Definition hash_sym : symbol := SChar 35.
(** <compound-only-L> and <compound-R>, of which the bilingual dictionary knows nothing *)
Definition mark_L : ustr :=
  [60; 99; 111; 109; 112; 111; 117; 110; 100; 45; 111; 110; 108; 121; 45; 76; 62].
Definition mark_R : ustr := [60; 99; 111; 109; 112; 111; 117; 110; 100; 45; 82; 62].
Definition is_mark (s : symbol) : bool :=
  match s with STag n => if ustr_eq_dec n mark_L then true else if ustr_eq_dec n mark_R then true else false | SChar _ => false end.
Definition without_marks (y : list symbol) : list symbol := filter (fun s => negb (is_mark s)) y.
(** <$>, <$_> and <$-> (of separable multiwords) *)
Definition separators : list symbol := [STag [60; 36; 62]; STag [60; 36; 95; 62]; STag [60; 36; 45; 62]].

(** The symbol is on the right side of an arc. *)
Definition writes (t : transducer) (a : alphabet) (s : symbol) : Prop :=
  exists p b q w i, has_arc t p b q w /\ as_symbols a b (i, s).
(** The symbol is on the left side of an arc. *)
Definition reads_sym (t : transducer) (a : alphabet) (s : symbol) : Prop :=
  exists p b q w o, has_arc t p b q w /\ as_symbols a b (s, o).

(** z is the left side of a word of the dictionary *)
Definition known (t : transducer) (a : alphabet) (z : list symbol) : Prop := exists y c, srel t a z y c.
(** z is the left side of a path from the initial state *)
Definition begins (t : transducer) (a : alphabet) (z : list symbol) : Prop :=
  exists tr q, trace (as_symbols a) t (initial t) tr q /\ sym_in tr = z.

(** y is covered by the dictionary: its last part is the left side of a word; the parts that
    end in '+' are only read as far as they go. *)
Inductive covered (t : transducer) (a : alphabet) : list symbol -> Prop :=
| covered_word y z : Forall2 agree y z -> known t a z -> covered t a y
| covered_plus y z rest : Forall2 agree y z -> begins t a z -> covered t a rest -> covered t a (y ++ plus_sym :: rest).

(** Arcs that read nothing have no weight. *)
Definition free_epsilons (t : transducer) (a : alphabet) : Prop :=
  forall p b q w o, has_arc t p b q w -> as_symbols a b (eps_sym, o) -> w = 0.
(** No two arcs differ in their weights alone, and an arc without label from a state to itself
    has no weight. *)
Definition single_weights (t : transducer) : Prop :=
  (forall p b q w w', has_arc t p b q w -> has_arc t p b q w' -> w = w')
  /\ forall p w, has_arc t p 0 p w -> w = 0.

(** * The tool lt-trim *)
(** A tag on the right side of a pair of the analyser's alphabet. *)
Definition right_tag (a : alphabet) (n : ustr) : Prop := exists b l c, decode b a = Ok (l, c) /\ as_symbol a c (STag n).
Definition is_tag (s : symbol) : bool := match s with STag _ => true | SChar _ => false end.
Definition tag_symbol (s : symbol) : Prop := exists n, s = STag n.
(** y is a word of the dictionary, with more tags behind it *)
Definition ends (D : list symbol -> Prop) (y : list symbol) : Prop :=
  exists z z' ts, y = z ++ ts /\ Forall2 agree z z' /\ D z' /\ Forall tag_symbol ts.
(** or the beginning of one *)
Definition starts (D : list symbol -> Prop) (y : list symbol) : Prop :=
  ends D y \/ exists z' more, Forall2 agree y z' /\ D (z' ++ more).
(** The parts of y, joined by '+', are in the dictionary. *)
Inductive translated (D : list symbol -> Prop) : list symbol -> Prop :=
| translated_last y : ends D y -> translated D y
| translated_part y rest : starts D y -> translated D rest -> translated D (y ++ plus_sym :: rest).
(** Behind a tag come only tags, up to a '+'. *)
Definition shaped (y : list symbol) : Prop := forall u n c v, y = u ++ STag n :: SChar c :: v -> SChar c = plus_sym.

(** The words of the bilingual dictionary for a section of the analyser: those of the section
    of that name if it is to be matched and there is one, else those of all sections that are
    not to be matched. *)
Definition dictionary (match_sections : list ustr) (ab : alphabet) (bi : list (ustr * transducer)) (name : ustr) (z : list symbol) : Prop :=
  (In name match_sections /\ exists t, In (name, t) bi /\ known t ab z)
  \/ (~ (In name match_sections /\ In name (map fst bi)) /\ exists n t, In (n, t) bi /\ ~ In n match_sections /\ known t ab z).
(** An analysis in the section of that name, and its weight *)
Definition analysed (a : alphabet) (sections : list (ustr * transducer)) (name : ustr) (x y : list symbol) (c : Z) : Prop :=
  exists t, In (name, t) sections /\ srel t a x y c.

(** Final states are reached, and from what is reached a final state is. *)
Definition finals_reached (t : transducer) : Prop := forall p, is_final t p -> exists l, path t (initial t) l p.
Definition live (t : transducer) : Prop := forall l p, path t (initial t) l p -> exists l' q, path t p l' q /\ is_final t q.
(** No arc leads into the initial state. *)
Definition entered (t : transducer) : Prop := exists p b w, has_arc t p b (initial t) w.
(** No arc reads '#'. *)
Definition unhashed (t : transducer) (a : alphabet) : Prop := ~ reads_sym t a hash_sym /\ ~ reads_sym t a (STag [35]).

(** A section of the bilingual dictionary *)
Record dictionary_section (ab : alphabet) (t : transducer) : Prop := {
  ds_wf : wf t;
  ds_symbols : symbols_in t ab;
  ds_finals : finals t <> [];
  ds_reached : finals_reached t;
  ds_live : live t;
  ds_entered : ~ entered t
}.
(** A section of the analyser *)
Record analyser_section (am : alphabet) (t : transducer) : Prop := {
  as_wf : wf t;
  as_symbols_in : symbols_in t am;
  as_finals : finals t <> [];
  as_separators : forall s, In s separators -> ~ writes t am s;
  as_one : ~ writes t am hash_sym \/ ~ writes t am plus_sym
}.
(** The tags on right sides are not wildcards, nor '#'. *)
Definition plain_right (am : alphabet) : Prop := forall n, right_tag am n -> n <> w_any_tag /\ n <> w_any_char /\ n <> [35].

(** No way from a state back to itself. *)
Definition acyclic (t : transducer) : Prop := forall p l, path t p l p -> l = [].
(** None that reads nothing. *)
Definition no_empty_loops (t : transducer) (a : alphabet) : Prop :=
  forall p tr, trace (as_symbols a) t p tr p -> sym_in tr = [] -> tr = [].
