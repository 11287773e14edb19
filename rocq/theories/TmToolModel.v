(** From a document to translated texts: what lt-tmxcomp writes (tmx_compiler.cc:416-437,
    lt_tmxcomp.cc:105-114) and how lt-tmxproc starts (lt_tmxproc.cc:35-51,
    fst_processor.cc:628-654, 2138-2157).  Definitions only.

    The options of lt-tmxcomp are read by the caller; the line about the size of the
    transducer on the standard output is left out. *)
From Verif Require Import Base CompressionModel AlphabetModel TransducerModel FileModel StateModel FinalsModel DixModel TmxModel ProcessorModel LoadModel TmModel StateSpec.

(** tmx_compiler.cc:416-437 [write]: no letters, one transducer without name *)
Definition tmx_write (to_file : Z -> weight) (a : alphabet) (t : transducer) : outcome (list Z) :=
  let! letters := multibyte_write 0 in
  let! symbols := alphabet_write a in
  let! number := multibyte_write 1 in
  let! name := multibyte_write 0 in
  let! body := transducer_write 0 (file_trans to_file t) in
  Ok (HEADER_LTTOOLBOX ++ write_be 0 ++ letters ++ symbols ++ number ++ name ++ body).

(** lt_tmxcomp.cc:105-114, without the errors of fopen; [None]: a unit is read without end (TmxModel.v) *)
Definition tmxcomp_program (isspace isdigit : Z -> bool) (origin_language meta_language : ustr) (to_file : Z -> weight)
    (ns : list xnode) : outcome (option (list Z)) :=
  let! r := lt_tmxcomp isspace isdigit origin_language meta_language ns in
  match r with
  | None => Ok None
  | Some (a, t) => let! bs := tmx_write to_file a t in Ok (Some bs)
  end.

(** fst_processor.cc:2138-2157 [valid] *)
Definition valid_memory (P : processor) : outcome bool :=
  let! init := initial_state P in
  if isFinal (all_finals P) init then Ok false
  else
    let! st := offer P (one 32) init in
    Ok (match st with [] => true | _ => false end).

(** lt_tmxproc.cc:37-51.  load, then 645-654 [initTMAnalysis]: the final nodes are those of
    [initGeneration].  EXIT_FAILURE is [Exit]. *)
Definition tmxproc_program (from_file : weight -> Z) (options : processor) (ispunct isdigit : Z -> bool) (space_mode : bool)
    (rounds : nat) (memory text : list Z) : outcome ustr :=
  let! P := load_generation from_file options memory in
  let! ok := valid_memory P in
  if ok then lt_tmxproc P ispunct isdigit space_mode rounds text else Exit.
