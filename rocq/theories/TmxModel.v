(** Compiling a translation memory: lttoolbox/tmx_compiler.cc, from the nodes of the XML reader
    to the transducer that is written.  Definitions only.

    A document is the list of nodes the reader stops at, as in DixModel.v.  Within a
    translation unit the results of the reader are not looked at: after the last node the name
    is "" for ever, so a unit that is not closed is read without end; this is [None].  The
    files (420-443 [write]) are in FileModel.v. *)
From Verif Require Import Base AlphabetModel TransducerModel ExpanderModel DixModel FinalsModel.

(** tmx_compiler.h:156-170 *)
Definition e_tmx : ustr := [116; 109; 120].  (* tmx *)
Definition e_header : ustr := [104; 101; 97; 100; 101; 114].  (* header *)
Definition e_body : ustr := [98; 111; 100; 121].  (* body *)
Definition e_tu : ustr := [116; 117].  (* tu *)
Definition e_tuv : ustr := [116; 117; 118].  (* tuv *)
Definition e_hi : ustr := [104; 105].  (* hi *)
Definition e_ph : ustr := [112; 104].  (* ph *)
Definition e_prop : ustr := [112; 114; 111; 112].  (* prop *)
Definition a_xmllang : ustr := [120; 109; 108; 58; 108; 97; 110; 103].  (* xml:lang *)
Definition a_lang : ustr := [108; 97; 110; 103].  (* lang *)
Definition t_number : ustr := [60; 110; 62].  (* <n> *)
Definition t_blank : ustr := [60; 98; 62].  (* <b> *)

Section Tmx.
(** ICU's u_isspace and u_isdigit; the two languages *)
Context (isspace isdigit : Z -> bool) (origin_language meta_language : ustr).

(** tmx_compiler.cc:29-37: the two tags are the first symbols of the alphabet *)
Definition start_alphabet : alphabet := includeSymbol t_blank (includeSymbol t_number new_alphabet).
Definition number_tag : Z := symbol_code t_number start_alphabet.
Definition blank_tag : Z := symbol_code t_blank start_alphabet.

(** 445-472 [trim]: blanks are taken off at the end, then at the beginning *)
Fixpoint drop_blanks (v : list Z) : list Z :=
  match v with
  | [] => []
  | c :: r => if isspace c then drop_blanks r else v
  end.
Definition trim_blanks (v : list Z) : list Z := drop_blanks (rev (drop_blanks (rev v))).

(** 544-582 [numberLength] at the beginning of [v]: digits and, except at the beginning, points
    and commas, back to the last digit *)
Definition in_number (first : bool) (c : Z) : bool := isdigit c || (negb first && ((c =? 46) || (c =? 44))).
Fixpoint number_run (first : bool) (v : list Z) : nat :=
  match v with
  | [] => O
  | c :: r => if in_number first c then S (number_run false r) else O
  end.
Fixpoint last_digit (n : nat) (v : list Z) : nat :=
  match n with
  | O => O
  | S k => if isdigit (nth k v 0) then S k else last_digit k v
  end.
Definition numberLength (v : list Z) : nat := last_digit (number_run true v) v.

(** 474-542 [align].  481-496: the numbers of the origin and the origin with tags for them;
    [skip] characters of a number are left *)
Fixpoint originPass (skip : nat) (v : list Z) : list Z * list (list Z) :=
  match v with
  | [] => ([], [])
  | c :: r =>
      match skip with
      | S k => originPass k r
      | O =>
          match numberLength v with
          | O => let '(m, ns) := originPass O r in (c :: m, ns)
          | S k => let '(m, ns) := originPass k r in (number_tag :: m, firstn (S k) v :: ns)
          end
      end
  end.
(** 505-522: the first number of the origin with this length and these characters *)
Fixpoint number_index (n : list Z) (ns : list (list Z)) : option nat :=
  match ns with
  | [] => None
  | x :: r => if ustr_eq_dec n x then Some O else match number_index n r with Some k => Some (S k) | None => None end
  end.
(** 512-521; the number is written to a buffer of 8 units and as many units are read as it has *)
Definition reference (j : nat) : outcome (list Z) :=
  let valor := decimal (Z.of_nat j + 1) in
  if (8 <? length valor)%nat then UB else Ok ([64; 40] ++ valor ++ [41]).
(** 498-536 at position [i]; None is the return in 522-526.  526-531: for a number that is not
    in the origin, [nl - i] characters are copied *)
Fixpoint metaPass (ns : list (list Z)) (i skip : nat) (v : list Z) : outcome (option (list Z)) :=
  match v with
  | [] => Ok (Some [])
  | c :: r =>
      match skip with
      | S k => metaPass ns (S i) k r
      | O =>
          match numberLength v with
          | O => let! m := metaPass ns (S i) O r in Ok (option_map (cons c) m)
          | S k =>
              match number_index (firstn (S k) v) ns with
              | Some j =>
                  let! x := reference j in
                  let! m := metaPass ns (S i) k r in Ok (option_map (app x) m)
              | None =>
                  if (S k <=? i)%nat then Ok None
                  else let! m := metaPass ns (S i) (S k - i - 1) r in Ok (option_map (app (firstn (S k - i) v)) m)
              end
          end
      end
  end.
Definition align_numbers (origin meta : list Z) : outcome (list Z * list Z) :=
  let '(modified, ns) := originPass O origin in
  let! m := metaPass ns O O meta in
  match m with
  | Some m => Ok (modified, m)
  | None => Ok (origin, meta)
  end.

(** 214-232 [split]: there is no part after a last separator *)
Fixpoint split_parts (symbol : Z) (v : list Z) : list (list Z) :=
  match v with
  | [] => []
  | c :: r =>
      if c =? symbol then [] :: split_parts symbol r
      else match split_parts symbol r with [] => [[c]] | p :: ps => (c :: p) :: ps end
  end.
(** 234-251 [join] *)
Fixpoint join_parts (s : Z) (v : list (list Z)) : list Z :=
  match v with
  | [] => []
  | [p] => p
  | p :: r => p ++ s :: join_parts s r
  end.
(** 271-275, 296-302: "(#" after every part but the last *)
Fixpoint mark_parts (v : list (list Z)) : list (list Z) :=
  match v with
  | [] => []
  | [p] => [p]
  | p :: r => (p ++ [40; 35]) :: mark_parts r
  end.
(** 253-305 [align_blanks]: both branches do this *)
Definition align_blanks (o m : list Z) : list Z * list Z :=
  (join_parts 32 (map trim_blanks (split_parts blank_tag o)),
   join_parts 41 (mark_parts (map trim_blanks (split_parts blank_tag m)))).

(** 178-212 [insertTU].  The pairs up to two symbols 0 *)
Fixpoint rounds_of (o m : list Z) : list (Z * Z) :=
  match o with
  | [] => map (fun y => (0, y)) m
  | x :: o => (x, hd 0 m) :: rounds_of o (tl m)
  end.
Fixpoint before_end (ps : list (Z * Z)) : list (Z * Z) :=
  match ps with
  | [] => []
  | (s1, s2) :: r => if (s1 =? 0) && (s2 =? 0) then [] else (s1, s2) :: before_end r
  end.
Fixpoint insert_pairs (ps : list (Z * Z)) (source : nat) (a : alphabet) (t : transducer) : outcome (nat * alphabet * transducer) :=
  match ps with
  | [] => Ok (source, a, t)
  | p :: r =>
      let '(tag, a) := pair_code p a in
      match insertSingleTransduction tag source 0 t with
      | (Some s, t) => insert_pairs r s a t
      | (None, _) => UB
      end
  end.
Definition insertTU (origin meta : list Z) (a : alphabet) (t : transducer) : outcome (alphabet * transducer) :=
  if (length origin <? 5)%nat || (length meta <? 5)%nat then Ok (a, t)
  else if (hd 0 origin =? blank_tag) || (hd 0 meta =? blank_tag) then Ok (a, t)
  else
    let! (s, a, t) := insert_pairs (before_end (rounds_of origin meta)) (initial t) a t in
    Ok (a, setFinal s 0 true t).

(** 307-363 [procTU].  321-337: where the text of a variant goes *)
Inductive side := ToMeta | ToOrigin | ToNone.
Definition side_of (n : xnode) : side :=
  let l := match attrib a_xmllang n with [] => attrib a_lang n | l => l end in
  if ueq l meta_language then ToMeta else if ueq l origin_language then ToOrigin else ToNone.
Definition push (s : side) (x : list Z) (om : list Z * list Z) : list Z * list Z :=
  match s with
  | ToMeta => (fst om, snd om ++ x)
  | ToOrigin => (fst om ++ x, snd om)
  | ToNone => om
  end.
(** 317-356; [inside] is the variant that is being read *)
Fixpoint readTU (inside : option side) (om : list Z * list Z) (ns : list xnode) : option (list Z * list Z * list xnode) :=
  match ns with
  | [] => None
  | n :: r =>
      match inside with
      | None =>
          if named e_tu n && x_end n then Some (om, r)
          else readTU (if named e_tuv n && negb (x_end n) then Some (side_of n) else None) om r
      | Some s =>
          let om :=
            if named n_text n then push s (x_value n) om
            else if named e_hi n || named e_ph n then if x_end n then om else push s [blank_tag] om
            else om in
          readTU (if named e_tuv n && x_end n then None else Some s) om r
      end
  end.
Definition unit_sides (om : list Z * list Z) : outcome (list Z * list Z) :=
  let! (o, m) := align_numbers (trim_blanks (fst om)) (trim_blanks (snd om)) in
  Ok (align_blanks o m).
(** 365-418 [procNode] and 43-72 [parse]; an error of the reader is reported and nothing else *)
Fixpoint tmxNodes (fuel : nat) (a : alphabet) (t : transducer) (ns : list xnode) : outcome (option (alphabet * transducer)) :=
  match ns with
  | [] => Ok (Some (a, t))
  | n :: r =>
      match fuel with
      | O => NoFuel
      | S fuel =>
          if named e_tu n then
            match (if x_end n then Some ([], [], r) else readTU None ([], []) r) with
            | None => Ok None
            | Some (om, r) =>
                let! (o, m) := unit_sides om in
                let! (a, t) := insertTU o m a t in
                tmxNodes fuel a t r
            end
          else if existsb (fun x => named x n) [n_text; e_tmx; e_header; e_body; e_prop; n_comment] then tmxNodes fuel a t r
          else Exit
      end
  end.
Definition lt_tmxcomp (ns : list xnode) : outcome (option (alphabet * transducer)) :=
  let! r := tmxNodes (length ns) start_alphabet new_transducer ns in
  match r with
  | None => Ok None
  | Some (a, t) => let! t := minimize 0 t in Ok (Some (a, t))
  end.
End Tmx.
