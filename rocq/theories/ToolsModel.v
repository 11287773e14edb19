(** The programs lt-append, lt-invert and lt-apply-acx (lttoolbox/lt_append.cc:46-66,
    lt_invert.cc:38-44, lt_apply_acx.cc:40-46): from the contents of compiled files to that of
    the result.  Definitions only.

    Reading and writing are in FileModel.v; here a dictionary is its set of letters, its
    alphabet and its sections by name.  Not modelled: command lines, readACX (CharFileModel.v), and what
    writeTransducerSet prints. *)
From Verif Require Import Base CompressionModel AlphabetModel TransducerModel RelabelModel FileModel LoadModel.

Record dict := mkD { d_letters : list Z; d_alpha : alphabet; d_sections : list (ustr * transducer) }.

Definition has_section (name : ustr) (l : list (ustr * transducer)) : bool :=
  existsb (fun x => if ustr_eq_dec name (fst x) then true else false) l.
(** lt_append.cc:54-64: the sections of the second file, in the order of the map *)
Fixpoint append_sections (keep pairs : bool) (alpha2 : alphabet) (todo : list (ustr * transducer))
    (trans1 : list (ustr * transducer)) (alpha1 : alphabet) : outcome (list (ustr * transducer) * alphabet) :=
  match todo with
  | [] => Ok (trans1, alpha1)
  | (name, t) :: r =>
      if has_section name trans1 && keep then append_sections keep pairs alpha2 r trans1 alpha1
      else
        let! (t, alpha1) := updateAlphabet alpha2 alpha1 pairs t in
        append_sections keep pairs alpha2 r (section_set name t trans1) alpha1
  end.
(** 46-66; the letters become 16-bit units (52) *)
Definition lt_append (keep pairs : bool) (d1 d2 : dict) : outcome dict :=
  let chars1 := fold_left (fun l c => zset_insert c l) (d_letters d2) (d_letters d1) in
  let! (m, a) := append_sections keep pairs (d_alpha d2) (by_name (d_sections d2)) (d_sections d1) (d_alpha d1) in
  Ok (mkD (map (fun c => c mod 2 ^ 16) chars1) a m).

(** lt_invert.cc:40-42 *)
Fixpoint invert_sections (m : list (ustr * transducer)) (a : alphabet) : outcome (list (ustr * transducer) * alphabet) :=
  match m with
  | [] => Ok ([], a)
  | (name, t) :: r =>
      let! (t, a) := invert t a in
      let! (r, a) := invert_sections r a in
      Ok ((name, t) :: r, a)
  end.
Definition lt_invert (d : dict) : outcome dict :=
  let! (m, a) := invert_sections (by_name (d_sections d)) (d_alpha d) in
  Ok (mkD (map (fun c => c mod 2 ^ 16) (d_letters d)) a m).

(** lt_apply_acx.cc:42-44 *)
Fixpoint acx_sections (acx : acx_table) (m : list (ustr * transducer)) (a : alphabet)
  : outcome (list (ustr * transducer) * alphabet) :=
  match m with
  | [] => Ok ([], a)
  | (name, t) :: r =>
      let! (t, a) := applyACX acx t a in
      let! (r, a) := acx_sections acx r a in
      Ok ((name, t) :: r, a)
  end.
Definition lt_apply_acx (acx : acx_table) (d : dict) : outcome dict :=
  let! (m, a) := acx_sections acx (by_name (d_sections d)) (d_alpha d) in
  Ok (mkD (map (fun c => c mod 2 ^ 16) (d_letters d)) a m).
