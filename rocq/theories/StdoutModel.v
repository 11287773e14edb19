(** Writing a dictionary, with what is printed meanwhile (lttoolbox/file_utils.cc:68-94).
    Definitions only.

    The programs write to the file named on the command line or, without a name or for "-", to
    the standard output (file_utils.cc:37-50), and print one line for each section on std::cout
    as they go.  No program calls sync_with_stdio, so std::cout and stdout share one buffer. *)
From Verif Require Import Base CompressionModel AlphabetModel FinalsModel FileModel.

(** what is written, in order, to the FILE or to std::cout *)
Inductive target := ToFile | ToCout.
Definition events := list (target * list Z).

(** utf8::utf16to8 as called by ustring.h:49-54; units that are no text throw *)
Definition utf8_of (c : Z) : list Z :=
  if c <? 128 then [c]
  else if c <? 2048 then [192 + c / 64; 128 + c mod 64]
  else if c <? 65536 then [224 + c / 4096; 128 + (c / 64) mod 64; 128 + c mod 64]
  else [240 + c / 262144; 128 + (c / 4096) mod 64; 128 + (c / 64) mod 64; 128 + c mod 64].
Fixpoint utf16to8 (s : ustr) : outcome (list Z) :=
  match s with
  | [] => Ok []
  | u :: r =>
      if u16_is_lead u then
        match r with
        | v :: r => if u16_is_trail v then let! t := utf16to8 r in Ok (utf8_of (u16_supp u v) ++ t) else Throw
        | [] => Throw
        end
      else if u16_is_trail u then Throw
      else let! t := utf16to8 r in Ok (utf8_of u ++ t)
  end.

(** file_utils.cc:83-84 with transducer.cc:475-492 [size], [numberOfTransitions] *)
Definition statistics (name : ustr) (t : ftrans) : outcome (list Z) :=
  let! n := utf16to8 name in
  Ok (n ++ [32] ++ decimal (Z.of_nat (length (f_trans t))) ++ [32]
        ++ decimal (Z.of_nat (list_sum (map (@length farc) (f_trans t)))) ++ [10]).
(** file_utils.cc:80-85 *)
Fixpoint section_events (l : list section_) : outcome events :=
  match l with
  | [] => Ok []
  | (name, t) :: r =>
      let! a := string_write name in
      let! b := transducer_write 0 t in
      let! s := statistics name t in
      let! c := section_events r in
      Ok ((ToFile, a) :: (ToFile, b) :: (ToCout, s) :: c)
  end.
(** file_utils.cc:68-86 *)
Definition set_events (letters : ustr) (alpha : alphabet) (l : list section_) : outcome events :=
  let! a := string_write letters in
  let! b := alphabet_write alpha in
  let! c := multibyte_write (to_uint (Z.of_nat (length l))) in
  let! d := section_events l in
  Ok ((ToFile, HEADER_LTTOOLBOX) :: (ToFile, write_be 0) :: (ToFile, a) :: (ToFile, b) :: (ToFile, c) :: d).
(** the contents of a file of its own, and of the standard output if the FILE is that *)
Definition in_file (e : events) : list Z :=
  concat (map snd (filter (fun x => match fst x with ToFile => true | ToCout => false end) e)).
Definition in_stdout (e : events) : list Z := concat (map snd e).
