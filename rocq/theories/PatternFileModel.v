(** Lists of patterns in files: PatternList::write, read, newMatchExe (lttoolbox/pattern_list.cc:360-399,
    417-421).  Definitions only.

    The transducer and the final types are those of buildTransducer.  Weights in files are as in
    LoadModel.v. *)
From Verif Require Import Base CompressionModel AlphabetModel TransducerModel FileModel LoadModel MatchModel PatternModel.

(** 364 *)
Definition tagger_name : ustr := [116; 97; 103; 103; 101; 114].
(** 372-377: int is converted to unsigned int *)
Fixpoint write_types (l : list (nat * Z)) : outcome (list Z) :=
  match l with
  | [] => Ok []
  | (s, c) :: r =>
      let! x := multibyte_write (to_uint (Z.of_nat s)) in
      let! y := multibyte_write (to_uint c) in
      let! z := write_types r in
      Ok (x ++ y ++ z)
  end.
(** 360-378 [write] *)
Definition plist_write (to_file : Z -> weight) (a : alphabet) (t : transducer) (ft : list (nat * Z)) : outcome (list Z) :=
  let! symbols := alphabet_write a in
  let! number := multibyte_write 1 in
  let! name := string_write tagger_name in
  let! body := transducer_write (alphabet_size a) (file_trans to_file t) in
  let! size := multibyte_write (to_uint (Z.of_nat (length ft))) in
  let! types := write_types ft in
  Ok (symbols ++ number ++ name ++ body ++ size ++ types).

(** 393-398.  Numbers that are read are below 2^30: no conversion changes them. *)
Fixpoint read_types (n : nat) (inp : list Z) (ft : list (nat * Z)) : list (nat * Z) * list Z :=
  match n with
  | O => (ft, inp)
  | S n =>
      let '(s, inp) := multibyte_read inp in
      let '(c, inp) := multibyte_read inp in
      read_types n inp (type_set (Z.to_nat s) c ft)
  end.
(** 380-400 [read] into a list of patterns whose transducer is [old] *)
Definition plist_read (old : ftrans) (inp : list Z) : outcome (alphabet * ftrans * list (nat * Z) * list Z) :=
  let '(a, inp) := alphabet_read inp in
  let '(n, inp) := multibyte_read inp in
  if n =? 1 then
    let '(_, inp) := string_read inp in
    let! (t, inp) := transducer_read (alphabet_size a) inp in
    let '(k, inp) := multibyte_read inp in
    let '(ft, inp) := read_types (Z.to_nat k) inp [] in
    Ok (a, t, ft, inp)
  else Ok (a, old, [], inp).
(** 417-421 [newMatchExe] and match_exe.cc:37-71, from a transducer that was read *)
Definition file_exe (t : ftrans) : node_table :=
  map (map (fun x : farc => (fst x, fst (snd x)))) (f_trans t).
