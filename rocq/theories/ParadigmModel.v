(** lt-paradigm (lttoolbox/lt_paradigm.cc): listing the words of a compiled dictionary that a
    pattern describes.  Definitions only.

    Trimming is in TrimModel.v, cutting a pattern into symbols in StringModel.v, reading the
    input in InputModel.v.  A line is kept as the pair (r, l) that is printed as "r:l".  Not
    modelled: the command line, reading the dictionary (FileModel.v) and the encoding of what
    is written. *)
From Verif Require Import Base CompressionModel AlphabetModel TransducerModel RelabelModel SortedVectorModel
  FileModel LoadModel TrimModel InputModel ToolsModel.
From Verif Require StringModel.

Definition line : Type := (ustr * ustr)%type.
Definition sections : Type := list (ustr * transducer).

(** * lt_paradigm.cc:29-59 [expand] *)
(** 34-39: the two sides of a path *)
Fixpoint sides (syms : list Z) (alpha : alphabet) : outcome (ustr * ustr) :=
  match syms with
  | [] => Ok ([], [])
  | it :: r =>
      let! (x, y) := decode it alpha in
      let! l := getSymbol x alpha in
      let! m := getSymbol y alpha in
      let! (ls, ms) := sides r alpha in
      Ok (l ++ ls, m ++ ms)
  end.
(** 33-47: what is printed for a state *)
Definition here (inter : transducer) (alpha : alphabet) (state : nat) (syms : list Z) : outcome (list line) :=
  if isFinal inter state then
    let! (l, r) := sides syms alpha in
    Ok (match l, r with [], _ | _, [] => [] | _, _ => [(r, l)] end)
  else Ok [].
(** 50-58; [past] are the states before [state], a set of which only the members matter *)
Fixpoint expand (fuel : nat) (inter : transducer) (alpha : alphabet) (state : nat) (past : list nat) (syms : list Z)
  : outcome (list line) :=
  match fuel with
  | O => NoFuel
  | S fuel =>
      let! first := here inter alpha state syms in
      let! rest :=
        (fix arcs (l : list arc) : outcome (list line) :=
           match l with
           | [] => Ok []
           | e :: r =>
               if set_mem (a_dst e) past then arcs r
               else
                 let! x := expand fuel inter alpha (a_dst e) (state :: past) (syms ++ [a_tag e]) in
                 let! y := arcs r in
                 Ok (x ++ y)
           end) (arcs_of inter state) in
      Ok (first ++ rest)
  end.

(** * The pattern *)
(** 61-75 [split_tag]; [sym] has more than [prefix] + 1 units *)
Definition split_tag (sym : ustr) (alpha : alphabet) (prefix : nat) (sep : Z) : list Z :=
  let names := StringModel.split_escaped (StringModel.sub sym (prefix + 1) (length sym - prefix - 2)) sep in
  fold_left (fun ret tg =>
      let tag := 60 :: tg ++ [62] in
      if isSymbolDefined tag alpha then iset_insert (symbol_code tag alpha) ret else ret) names [].
(** 90-92: an arc from [src] to [trg] for every one of the symbols *)
Fixpoint link_all (src trg : nat) (syms : list Z) (t : transducer) (alpha : alphabet) : outcome (transducer * alphabet) :=
  match syms with
  | [] => Ok (t, alpha)
  | s :: r =>
      let '(tag, alpha) := pair_code (s, s) alpha in
      let! t := linkStates src trg tag 0 t in
      link_all src trg r t alpha
  end.
(** 89-93: a new state behind an empty arc, with loops for the symbols *)
Definition star (syms : list Z) (state : nat) (t : transducer) (alpha : alphabet) : outcome (nat * (transducer * alphabet)) :=
  let '(state, t) := insertNewSingleTransduction 0 state 0 t in
  let! (t, alpha) := link_all state state syms t alpha in
  Ok (state, (t, alpha)).
(** 115-121: the first of the tags makes the state, the others lead there too *)
Definition one_of (syms : list Z) (state : nat) (t : transducer) (alpha : alphabet) : outcome (nat * (transducer * alphabet)) :=
  match syms with
  | [] => Ok (state, (t, alpha))
  | s :: r =>
      let '(tag, alpha) := pair_code (s, s) alpha in
      let '(trg, t) := insertNewSingleTransduction tag state 0 t in
      let! (t, alpha) := link_all state trg r t alpha in
      Ok (trg, (t, alpha))
  end.
Definition any_char : Z := 42.                       (* '*' *)
Definition s_any_tag : ustr := [60; 42; 62].         (* <*> *)
Definition s_or_tags : ustr := [60; 42; 124].        (* <*| *)
Definition s_but_tags : ustr := [60; 42].            (* <* *)
Definition s_one_tag : ustr := [60; 124].            (* <| *)
(** 87-124: one symbol of the pattern *)
Definition pattern_symbol (letters tags : list Z) (sym : ustr) (state : nat) (t : transducer) (alpha : alphabet)
  : outcome (nat * (transducer * alphabet)) :=
  let it := match sym with [c] => c | _ => symbol_code sym alpha end in
  if it =? any_char then star letters state t alpha
  else if it =? symbol_code s_any_tag alpha then star tags state t alpha
  else if (it =? 0) && StringModel.startswith sym s_or_tags then star (split_tag sym alpha 2 124) state t alpha
  else if (it =? 0) && StringModel.startswith sym s_but_tags then
    star (filter (fun x => negb (existsb (Z.eqb x) (split_tag sym alpha 1 45))) tags) state t alpha
  else if (it =? 0) && StringModel.startswith sym s_one_tag then one_of (split_tag sym alpha 1 124) state t alpha
  else
    let '(tag, alpha) := pair_code (it, it) alpha in
    let '(state, t) := insertNewSingleTransduction tag state 0 t in
    Ok (state, (t, alpha)).
Fixpoint pattern_symbols (letters tags : list Z) (syms : list ustr) (state : nat) (t : transducer) (alpha : alphabet)
  : outcome (nat * (transducer * alphabet)) :=
  match syms with
  | [] => Ok (state, (t, alpha))
  | sym :: r =>
      let! (state, (t, alpha)) := pattern_symbol letters tags sym state t alpha in
      pattern_symbols letters tags r state t alpha
  end.
(** 83-126: the transducer of the pattern.  symbol_iter sees the zero behind the string. *)
Definition pattern_transducer (letters tags : list Z) (pattern : ustr) (alpha : alphabet) : outcome (transducer * alphabet) :=
  let! syms := StringModel.symbols (S (length pattern)) (pattern ++ [0]) (length pattern) in
  let! (state, (t, alpha)) := pattern_symbols letters tags syms 0 new_transducer alpha in
  Ok (setFinal state 0 true t, alpha).

(** * 77-145 [process] *)
(** 128-137: the sections by name; trim joins their final states (transducer.cc:1048) *)
Fixpoint list_sections (fuel : nat) (other : transducer) (alpha : alphabet) (trans : sections) : outcome (list line * sections) :=
  match trans with
  | [] => Ok ([], [])
  | (name, t) :: r =>
      let! inter := trim fuel other alpha alpha t in
      let! t := joinFinals 0 t in
      let! out := if hasNoFinals inter then Ok [] else expand fuel inter alpha (initial inter) [] [] in
      let! (outs, r) := list_sections fuel other alpha r in
      Ok (out ++ outs, (name, t) :: r)
  end.
(** std::set<std::pair<UString, UString>>::insert *)
Definition line_before (x y : line) : bool :=
  name_before (fst x) (fst y) || (negb (name_before (fst y) (fst x)) && name_before (snd x) (snd y)).
Fixpoint line_insert (x : line) (l : list line) : list line :=
  match l with
  | [] => [x]
  | y :: r => if line_before x y then x :: l else if line_before y x then y :: line_insert x r else l
  end.
Definition process (fuel : nat) (sort : bool) (letters tags : list Z) (pattern : ustr) (trans : sections) (alpha : alphabet)
  : outcome (list line * (sections * alphabet)) :=
  let! (other, alpha) := pattern_transducer letters tags pattern alpha in
  let! (lines, trans) := list_sections fuel other alpha trans in
  Ok (if sort then fold_left (fun l x => line_insert x l) lines [] else lines, (trans, alpha)).

(** * 147-218 [main] *)
(** u_fprintf("%S:%S\n"): the strings end at a zero *)
Fixpoint c_str (s : ustr) : ustr := match s with [] => [] | c :: r => if c =? 0 then [] else c :: c_str r end.
Definition print_line (x : line) : ustr := c_str (fst x) ++ 58 :: c_str (snd x) ++ [10].
(** 178-187: the tags <*> stands for, of codes -1, -2, ... *)
Fixpoint listed_tags (exclude : list ustr) (i : nat) (names : list ustr) : list Z :=
  match names with
  | [] => []
  | t :: r =>
      let l := listed_tags exclude (S i) r in
      if existsb (fun x => if ustr_eq_dec t x then true else false) exclude then l else iset_insert (- Z.of_nat (S i)) l
  end.
(** 201-214; [cur] is the pattern so far *)
Fixpoint patterns (fuel : nat) (sort : bool) (letters tags : list Z) (input : inf) (cur : ustr) (trans : sections) (alpha : alphabet)
  (k : nat) : outcome ustr :=
  match k with
  | O => NoFuel
  | S k =>
      let! (c, input) := get input in
      if (c =? 10) || (c =? 0) || (c =? U_EOF) then
        let! (lines, (trans, alpha)) := process fuel sort letters tags cur trans alpha in
        let out := concat (map print_line lines) ++ (if c =? U_EOF then [] else [c]) in
        if eof input then Ok out
        else let! more := patterns fuel sort letters tags input [] trans alpha k in Ok (out ++ more)
      else if eof input then Ok []
      else patterns fuel sort letters tags input (append_cp cur c) trans alpha k
  end.
(** 157-198: [analyser] is -a, [exclude] the arguments of -e, [sort] is -s *)
Definition lt_paradigm (fuel : nat) (analyser sort : bool) (exclude : list ustr) (d : dict) (input : inf) : outcome ustr :=
  let alpha := includeSymbol s_any_tag (d_alpha d) in
  let tags := listed_tags exclude 0 (slexicinv alpha) in
  let! (trans, alpha) := if analyser then Ok (by_name (d_sections d), alpha) else invert_sections (by_name (d_sections d)) alpha in
  patterns fuel sort (d_letters d) tags input [] trans alpha (S (i_size input)).
