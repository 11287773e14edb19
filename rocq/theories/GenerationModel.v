(** FSTProcessor: morphological generation (lttoolbox/fst_processor.cc:1263-1391, 2369-2382,
    fst_processor.h:41-50).  Definitions only.

    As in ProcessorModel.v: State objects are their values, output is the list of UTF-16
    units written, flushing is not modelled. *)
From Verif Require Import Base CompressionModel AlphabetModel StateModel StateSpec FinalsModel
  InputModel StreamModel ProcessorModel.

(** fst_processor.h:41-50 *)
Inductive gmode := gm_clean | gm_unknown | gm_all | gm_bilgen | gm_tagged | gm_tagged_nm | gm_carefulcase.
Definition is_tagged_mode (m : gmode) : bool :=
  match m with gm_tagged | gm_tagged_nm => true | _ => false end.
Definition is_careful (m : gmode) : bool := match m with gm_carefulcase => true | _ => false end.

(** fst_processor.cc:2369-2382 [removeTags]; [prev] is str[i-1] *)
Fixpoint remove_tags (prev : option Z) (str : ustr) : ustr :=
  match str with
  | [] => []
  | c :: r =>
      if (c =? 60) && match prev with Some p => negb (p =? 92) | None => false end
      then [] else c :: remove_tags (Some c) r
  end.
Definition removeTags (str : ustr) : ustr := remove_tags None str.

Section GenerationModel.
  Context (P : processor).

  (** State::step_careful (state.cc:402-407, 265-284): the alternative only where there is no
      arc for the symbol itself *)
  Definition careful_choice (i a : Z) : choice :=
    if (i =? 0) || (a =? 0) then None
    else Some (same, fun p => match p_find P p i with [] => [(a, true)] | _ => [(i, false)] end).
  (** 1326-1337: one symbol *)
  Definition gen_choice (mode : gmode) (sym : Z) (caseSensitive : bool) : choice :=
    if negb (isTag sym) && p_isupper P sym && negb caseSensitive then
      if is_careful mode then careful_choice sym (p_tolower P sym) else two sym (p_tolower P sym)
    else one sym.
  Definition gen_step (mode : gmode) (sym : Z) (st : analyses) : outcome analyses :=
    offer P (gen_choice mode sym (beCaseSensitive P st)) st.
  Fixpoint gen_steps (mode : gmode) (st : analyses) (l : list Z) : outcome analyses :=
    match l with
    | [] => Ok st
    | sym :: r => let! st := gen_step mode sym st in gen_steps mode st r
    end.

  (** 1338-1354: the forms; content[0] of an empty string is its terminating 0, and
      substr(1) of an empty string throws *)
  Definition gen_forms (content : ustr) (st : analyses) : outcome ustr :=
    let uppercase := negb (p_dictionaryCase P) && (1 <? length content)%nat && p_isupper P (nth 1 content 0) in
    let firstupper := negb (p_dictionaryCase P) && p_isupper P (nth 0 content 0) in
    let! t := filterFinals (p_toupper P) (p_sort P) (all_finals P) (p_alpha P) is_escaped (p_weights P)
                (p_maxAnalyses P) (p_maxClasses P) uppercase firstupper 0 st in
    match t with [] => Throw | _ :: t => Ok t end.

  (** ^lemma/mark lemma and tags$, e.g. 1286-1291 *)
  Definition gen_marked (mark : Z) (content : ustr) : ustr :=
    [94] ++ writeEscaped (removeTags content) ++ [47; mark] ++ writeEscapedWithTags content ++ [36].
  (** 1277-1323: the switch on the mark; [None] if the word is to be generated *)
  Definition gen_skipped (mode : gmode) (mark : Z) (content : ustr) : option ustr :=
    if (mark =? 42) || (mark =? 37) then
      Some (match mode with
            | gm_tagged_nm => gen_marked mark content
            | gm_clean => writeEscaped content
            | _ => mark :: writeEscaped content
            end)
    else if mark =? 64 then
      Some (match mode with
            | gm_all => mark :: writeEscaped content
            | gm_unknown | gm_tagged => mark :: writeEscaped (removeTags content)
            | gm_bilgen | gm_clean => writeEscaped (removeTags content)
            | gm_tagged_nm => gen_marked mark content
            | gm_carefulcase => []
            end)
    else None.
  (** 1360-1381: a word that cannot be generated *)
  Definition gen_failed (mode : gmode) (content : ustr) : ustr :=
    match mode with
    | gm_all => 35 :: writeEscaped content
    | gm_carefulcase | gm_unknown | gm_tagged =>
        (match content with [] => [] | _ => [35] end) ++ writeEscaped (removeTags content)
    | gm_bilgen | gm_clean => writeEscaped (removeTags content)
    | gm_tagged_nm => gen_marked 35 content
    end.
  (** 1274-1383: one unit *)
  Definition gen_word (mode : gmode) (rd : reading) : outcome ustr :=
    match gen_skipped mode (r_mark rd) (r_content rd) with
    | Some t => Ok t
    | None =>
        let! init := initial_state P in
        let! st := gen_steps mode init (r_symbols rd) in
        let! t :=
          if isFinal (all_finals P) st then
            let! forms := gen_forms (r_content rd) st in
            Ok (if is_tagged_mode mode
                then [94] ++ forms ++ [47] ++ writeEscapedWithTags (r_content rd) ++ [36] else forms)
          else Ok (gen_failed mode (r_content rd)) in
        Ok ((if r_mark rd =? 61 then [61] else []) ++ t)
    end.
  (** 1270-1391 [generation] *)
  Fixpoint gen_loop (fuel : nat) (mode : gmode) (r : reader) : outcome ustr :=
    if rd_eof r then Ok []
    else
      match fuel with
      | O => NoFuel
      | S fuel =>
          let! r := next_unit r in
          let! word := match rd_readings r with [] => Ok [] | x :: _ => gen_word mode x end in
          let! rest := gen_loop fuel mode r in
          Ok (rd_blank r ++ rd_wblank r ++ word ++ (if rd_null r then [0] else []) ++ rest)
      end.
  Definition generation (mode : gmode) (f : inf) : outcome ustr :=
    gen_loop (3 + i_size f) mode (new_reader f (Some (p_alpha P)) false).
End GenerationModel.
