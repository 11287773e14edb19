(** What a dictionary that was compiled, written and loaded should do (C61), in terms of the
    words of the dictionary.  Nothing here uses the compiler, the file or the graph. *)
From Verif Require Import Base CompressionModel AlphabetModel StringModel CompilerModel CompilerSpec ValidProps.

(** The words of a section.  ([input], ValidProps.v: what is read.) *)
Definition word (left_to_right : bool) (items : list item) (name : ustr) : pset :=
  section_set left_to_right (fun _ => no_words) items name.
(** What is written for a word: one symbol for every pair, 0 if it has none. *)
Definition output (w : list (Z * Z)) : list Z := map snd w.

(** No entry has a weight. *)
Definition item_entries (it : item) : list (list entry_token) := match it with Pardef _ es | Sec _ es => es end.
Definition unweighted (items : list item) : Prop :=
  forall it els l r w, In it items -> In els (item_entries it) -> In (Single l r w) els -> w = 0.

(** The kinds of sections, from their names *)
Definition named_with (suffix name : ustr) : Prop := exists stem, name = stem ++ suffix.
Definition n_inconditional : ustr := [64; 105; 110; 99; 111; 110; 100; 105; 116; 105; 111; 110; 97; 108].
Definition n_standard : ustr := [64; 115; 116; 97; 110; 100; 97; 114; 100].
Definition n_postblank : ustr := [64; 112; 111; 115; 116; 98; 108; 97; 110; 107].
Definition n_preblank : ustr := [64; 112; 114; 101; 98; 108; 97; 110; 107].
Definition has_kind (name : ustr) : Prop :=
  named_with n_inconditional name \/ named_with n_standard name \/ named_with n_postblank name \/ named_with n_preblank name.
