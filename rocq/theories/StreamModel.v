(** The stream format: reading symbols (fst_processor.cc:181-240), writing with escapes
    (479-568, fst_processor.h:476-483), StreamReader (stream_reader.cc) and lt-merge
    (fst_processor.cc:1997-2136).  Definitions only.

    A UString is its list of UTF-16 units; what is written is the list of the units given to
    the UFILE (the conversion to UTF-8 by ICU is not modelled). *)
From Verif Require Import Base CompressionModel AlphabetModel BufferModel StringModel InputModel.

(** fst_processor.cc:32-45: [ ] { } ^ $ / \ @ < > *)
Definition escaped_chars : list Z := [91; 93; 123; 125; 94; 36; 47; 92; 64; 60; 62].
Definition is_escaped (c : Z) : bool := existsb (Z.eqb c) escaped_chars.

(** * Writing *)
(** fst_processor.cc:479-490 [writeEscaped], fst_processor.h:476-483 [appendEscaped] *)
Fixpoint writeEscaped (str : ustr) : ustr :=
  match str with
  | [] => []
  | c :: r => (if is_escaped c then [92; c] else [c]) ++ writeEscaped r
  end.
Definition appendEscaped (to from : ustr) : ustr := to ++ writeEscaped from.

(** fst_processor.cc:512-528 [writeEscapedWithTags]; [prev] is str[i-1] *)
Fixpoint escapedWithTags (prev : option Z) (str : ustr) : ustr :=
  match str with
  | [] => []
  | c :: r =>
      if (c =? 60) && match prev with Some p => negb (p =? 92) | None => false end
      then str
      else (if is_escaped c then [92; c] else [c]) ++ escapedWithTags (Some c) r
  end.
Definition writeEscapedWithTags (str : ustr) : ustr := escapedWithTags None str.

(** fst_processor.cc:532-539 [printWord], 554-563 [printUnknownWord] *)
Definition printWord (sf lf : ustr) : ustr := [94] ++ writeEscaped sf ++ lf ++ [36].
Definition printUnknownWord (sf : ustr) : ustr :=
  [94] ++ writeEscaped sf ++ [47; 42] ++ writeEscaped sf ++ [36].

(** fst_processor.cc:492-510 [writeEscapedPopBlanks]: the text, the number returned, the
    blanks left; front() of an empty queue is undefined *)
Fixpoint writeEscapedPopBlanks (str : ustr) (blanks : list ustr) : outcome (ustr * nat * list ustr) :=
  match str with
  | [] => Ok ([], 0%nat, blanks)
  | c :: r =>
      let! (more, blanks) :=
        if c =? 32 then
          match blanks with
          | [] => UB
          | b :: bs => if ustr_eq_dec b [32] then Ok (0%nat, bs) else Ok (1%nat, blanks)
          end
        else Ok (0%nat, blanks) in
      let! (t, n, blanks) := writeEscapedPopBlanks r blanks in
      Ok ((if is_escaped c then [92; c] else [c]) ++ t, (more + n)%nat, blanks)
  end.
(** fst_processor.cc:541-552 [printWordPopBlank] *)
Definition printWordPopBlank (sf lf : ustr) (blanks : list ustr) : outcome (ustr * list ustr) :=
  let! (t, postpop, blanks) := writeEscapedPopBlanks sf blanks in
  Ok ([94] ++ t ++ lf ++ [36] ++ concat (firstn postpop blanks), skipn postpop blanks).

(** * readAnalysis, fst_processor.cc:181-240 *)
Record source := mkS { s_file : inf; s_buf : buffer Z; s_blanks : list ustr }.
Section ReadAnalysis.
  Context (ignored : Z -> bool) (a : alphabet).

  (** while(ignored) val = input.get(): each round but the last reads a character of the
      file or its buffer. *)
  Fixpoint skip_ignored (fuel : nat) (val : Z) (f : inf) : outcome (Z * inf) :=
    if ignored val then
      match fuel with
      | O => NoFuel
      | S fuel => let! (val, f) := get f in skip_ignored fuel val f
      end
    else Ok (val, f).
  Definition readAnalysis (s : source) : outcome (Z * source) :=
    if negb (isEmpty (s_buf s)) then
      let! (v, b) := next (s_buf s) in Ok (v, mkS (s_file s) b (s_blanks s))
    else
      let! (val, f) := get (s_file s) in
      if eof f then
        let! b := add 0 (s_buf s) in Ok (0, mkS f b (s_blanks s))
      else
        let val := if val =? U_EOF then 0 else val in
        let! (val, f) := skip_ignored (2 + i_size f) val f in
        if val =? 60 then
          let! (tag, f) := readBlock 60 62 f in
          let alt := symbol_code tag a in
          let! b := add alt (s_buf s) in Ok (alt, mkS f b (s_blanks s))
        else if val =? 91 then
          let! (val, f) := get f in
          if val =? 91 then
            let! (w, f) := finishWBlank f in
            let! b := add 32 (s_buf s) in Ok (32, mkS f b (s_blanks s ++ [w]))
          else
            let! f := unget val f in
            let! (w, f) := readBlock 91 93 f in
            let! b := add 32 (s_buf s) in Ok (32, mkS f b (s_blanks s ++ [w]))
        else if val =? 92 then
          let! (val, f) := get f in
          let! b := add val (s_buf s) in Ok (val, mkS f b (s_blanks s))
        else if is_escaped val then Throw
        else
          let! b := add val (s_buf s) in
          Ok (val, mkS f b (s_blanks s ++ (if val =? 32 then [[32]] else []))).
  (** The symbols read up to the first 0 *)
  Fixpoint read_symbols (fuel : nat) (s : source) : outcome (list Z * source) :=
    match fuel with
    | O => NoFuel
    | S fuel =>
        let! (v, s) := readAnalysis s in
        if v =? 0 then Ok ([], s)
        else let! (l, s) := read_symbols fuel s in Ok (v :: l, s)
    end.
End ReadAnalysis.
(** fst_processor.cc:141-144 [initDefaultIgnoredCharacters]: the soft hyphen *)
Definition default_ignored (c : Z) : bool := c =? 173.
(** buffer.h:71: input_buffer has 2048 cells *)
Definition new_source (f : inf) : source := mkS f (mkB 2048 (repeat None 2048) 0 0) [].

(** * StreamReader *)
(** stream_reader.h:29-46 *)
Record reading := mkR { r_mark : Z; r_content : ustr; r_symbols : list Z }.
Record reader := mkRd {
  rd_file : inf; rd_null : bool; rd_eof : bool; rd_blank : ustr; rd_wblank : ustr;
  rd_readings : list reading; rd_chunk : ustr; rd_alpha : option alphabet; rd_add : bool
}.
(** A reader just made, with [alpha] and [add_unknowns] set *)
Definition new_reader (f : inf) (alpha : option alphabet) (add_unknowns : bool) : reader :=
  mkRd f false false [] [] [] [] alpha add_unknowns.

(** stream_reader.cc:70-75: the symbol of a tag *)
Definition tag_symbol (tag : ustr) (alpha : option alphabet) (add_unknowns : bool)
  : list Z * option alphabet :=
  match alpha with
  | None => ([], None)
  | Some a =>
      let a := if add_unknowns then includeSymbol tag a else a in
      ([symbol_code tag a], Some a)
  end.
Definition char_symbol (c : Z) (alpha : option alphabet) : list Z :=
  match alpha with None => [] | Some _ => [c] end.

(** stream_reader.cc:68-93, the inner loop *)
Fixpoint reading_loop (fuel : nat) (add_unknowns : bool) (c : Z) (f : inf) (content : ustr)
    (symbols : list Z) (chunk : ustr) (alpha : option alphabet)
  : outcome (Z * inf * ustr * list Z * ustr * option alphabet) :=
  if (c =? 47) || (c =? 36) || (c =? 0) || eof f then Ok (c, f, content, symbols, chunk, alpha)
  else
    match fuel with
    | O => NoFuel
    | S fuel =>
        if c =? 60 then
          let! (tag, f) := readBlock 60 62 f in
          let '(sym, alpha) := tag_symbol tag alpha add_unknowns in
          let! (c, f) := get f in
          reading_loop fuel add_unknowns c f (content ++ tag) (symbols ++ sym) chunk alpha
        else if c =? 123 then
          let! (t, f) := readBlock 123 125 f in
          let! (c, f) := get f in
          reading_loop fuel add_unknowns c f content symbols (chunk ++ t) alpha
        else if c =? 92 then
          let! (c2, f) := get f in
          let! (c', f) := get f in
          reading_loop fuel add_unknowns c' f (append_cp (append_cp content c) c2)
            (symbols ++ char_symbol c2 alpha) chunk alpha
        else
          let! (c', f) := get f in
          reading_loop fuel add_unknowns c' f (append_cp content c)
            (symbols ++ char_symbol c alpha) chunk alpha
    end.
(** stream_reader.cc:60-94, the outer loop *)
Definition is_mark (c : Z) : bool := existsb (Z.eqb c) [42; 64; 35; 61; 37].
Fixpoint unit_loop (fuel : nat) (add_unknowns : bool) (c : Z) (f : inf) (readings : list reading)
    (chunk : ustr) (alpha : option alphabet)
  : outcome (Z * inf * list reading * ustr * option alphabet) :=
  if (c =? 36) || (c =? 0) || eof f then Ok (c, f, readings, chunk, alpha)
  else
    match fuel with
    | O => NoFuel
    | S fuel =>
        let! (p, f) := InputModel.peek f in
        let! (mark, f) := if is_mark p then (let! (_, f) := get f in Ok (p, f)) else Ok (0, f) in
        let! (c, f) := get f in
        let! (c, f, content, symbols, chunk, alpha) :=
          reading_loop (2 + i_size f) add_unknowns c f [] [] chunk alpha in
        unit_loop fuel add_unknowns c f (readings ++ [mkR mark content symbols]) chunk alpha
    end.

(** stream_reader.cc:24-98 [next] *)
Fixpoint reader_next (fuel : nat) (r : reader) : outcome reader :=
  if rd_eof r then Ok (mkRd (rd_file r) (rd_null r) true [] [] [] [] (rd_alpha r) (rd_add r))
  else
    match fuel with
    | O => NoFuel
    | S fuel =>
        let! (blank, f) := readBlank false (rd_file r) in
        let! (c, f) := get f in
        let word c f wblank :=
          if c =? 0 then Ok (mkRd f true false blank wblank [] [] (rd_alpha r) (rd_add r))
          else if eof f then Ok (mkRd f false true blank wblank [] [] (rd_alpha r) (rd_add r))
          else
            let! (c, f, readings, chunk, alpha) :=
              unit_loop (2 + i_size f) (rd_add r) c f [] [] (rd_alpha r) in
            Ok (mkRd f (c =? 0) (negb (c =? 0) && ((c =? U_EOF) || eof f)) blank wblank readings
                  chunk alpha (rd_add r)) in
        if c =? 91 then
          let! (_, f) := get f in
          let! (wblank, f) := finishWBlank f in
          let! (p, f) := InputModel.peek f in
          if negb (p =? 94) then
            let! r' := reader_next fuel
              (mkRd f false false blank wblank [] [] (rd_alpha r) (rd_add r)) in
            Ok (mkRd (rd_file r') (rd_null r') (rd_eof r') ((blank ++ wblank) ++ rd_blank r')
                  (rd_wblank r') (rd_readings r') (rd_chunk r') (rd_alpha r') (rd_add r'))
          else
            let! (c, f) := get f in word c f wblank
        else word c f []
    end.
Definition next_unit (r : reader) : outcome reader := reader_next (2 + i_size (rd_file r)) r.

(** * lt-merge *)
(** str.find(what) != npos *)
Definition contains (what str : ustr) : bool :=
  match find_in what str with Some _ => true | None => false end.
Definition any_reading (what : ustr) (r : reader) : bool :=
  existsb (fun x => contains what (r_content x)) (rd_readings r).
Definition MERGE_BEG : ustr := [60; 77; 69; 82; 71; 69; 95; 66; 69; 71; 62].
Definition MERGE_END : ustr := [60; 77; 69; 82; 71; 69; 95; 69; 78; 68; 62].
Definition MERGED : ustr := [60; 77; 69; 82; 71; 69; 68; 62].

(** fst_processor.cc:2043-2056, 2116-2130: a unit as read *)
Fixpoint write_readings (l : list reading) : ustr :=
  match l with
  | [] => []
  | x :: r => (if r_mark x =? 0 then [] else append_cp [] (r_mark x)) ++ r_content x
              ++ (match r with [] => [] | _ => [47] ++ write_readings r end)
  end.
Definition write_unit (l : list reading) : ustr :=
  match l with [] => [] | _ => [94] ++ write_readings l ++ [36] end.

(** fst_processor.cc:1997-2073 [quoteMerge] *)
Fixpoint merge_loop (fuel : nat) (r : reader) (merging : bool) (surface : ustr) : outcome ustr :=
  if rd_eof r then Ok []
  else
    match fuel with
    | O => NoFuel
    | S fuel =>
        let! r := next_unit r in
        let merging := merging || any_reading MERGE_BEG r in
        let end_merging := any_reading MERGE_END r in
        let '(out, surface) :=
          if merging then
            let '(out, surface) :=
              match surface with
              | [] => (rd_blank r ++ rd_wblank r, [])
              | _ =>
                  let surface := appendEscaped (surface ++ rd_blank r) (rd_wblank r) in
                  ([], match rd_wblank r with [] => surface | _ => appendEscaped surface [94; 36] end)
              end in
            (out, match rd_readings r with [] => surface | x :: _ => appendEscaped surface (r_content x) end)
          else (rd_blank r ++ rd_wblank r ++ write_unit (rd_readings r), surface) in
        if end_merging || rd_null r then
          let! rest := merge_loop fuel r false [] in
          Ok (out ++ (if merging then [94] ++ surface ++ [47] ++ surface ++ MERGED ++ [36] else [])
                ++ (if rd_null r then [0] else []) ++ rest)
        else
          let! rest := merge_loop fuel r merging surface in Ok (out ++ rest)
    end.
Definition quoteMerge (a : alphabet) (f : inf) : outcome ustr :=
  merge_loop (3 + i_size f) (new_reader f (Some a) true) false [].

(** fst_processor.cc:2099-2111: removing one level of escaping *)
Fixpoint unescape (escaping : bool) (str : ustr) : ustr :=
  match str with
  | [] => []
  | c :: r =>
      if escaping then c :: unescape false r
      else if c =? 92 then unescape true r
      else c :: unescape false r
  end.
(** fst_processor.cc:2076-2136 [quoteUnmerge] *)
Fixpoint unmerge_loop (fuel : nat) (r : reader) : outcome ustr :=
  if rd_eof r then Ok []
  else
    match fuel with
    | O => NoFuel
    | S fuel =>
        let! r := next_unit r in
        let! rest := unmerge_loop fuel r in
        Ok (rd_blank r ++ rd_wblank r
            ++ (if any_reading MERGED r
                then unescape false (r_content (last (rd_readings r) (mkR 0 [] [])))
                else write_unit (rd_readings r))
            ++ (if rd_null r then [0] else []) ++ rest)
    end.
Definition quoteUnmerge (a : alphabet) (f : inf) : outcome ustr :=
  unmerge_loop (3 + i_size f) (new_reader f (Some a) true).
