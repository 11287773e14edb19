(** FSTProcessor: transliteration, post-generation and inter-generation
    (lttoolbox/fst_processor.cc:324-420, 1391-1596, alphabet.cc:312-322,
    string_utils.cc:297-306).  Definitions only.

    As in ProcessorModel.v: State objects are their values, output is the list of UTF-16
    units written, flushing is not modelled.  [p_standard] and the other sections together
    are all_finals (initGeneration, 656-665). *)
From Verif Require Import Base CompressionModel AlphabetModel StateModel StateSpec FinalsModel
  StringModel InputModel StreamModel ProcessorModel.

(** string_utils.cc:297-306 [merge_wblanks]; size()-2 of a shorter view wraps around *)
Definition merge_wblanks (w1 w2 : ustr) : outcome ustr :=
  match w1, w2 with
  | [], _ => Ok w2
  | _, [] => Ok w1
  | _, _ =>
      let ret := if (length w1 <? 2)%nat then w1 else firstn (length w1 - 2) w1 in
      if (length w2 <? 2)%nat then Throw else Ok (ret ++ [59; 32] ++ skipn 2 w2)
  end.

Section TranslitModel.
  Context (P : processor).

  (** alphabet.cc:312-322 [tokenize]; sym[0] of an empty view is undefined.  The view is of a
      std::basic_string, so a 0 follows. *)
  Fixpoint piece_codes (l : list ustr) : outcome (list Z) :=
    match l with
    | [] => Ok []
    | x :: r =>
        let! c := match x with [] => UB | [c] => Ok c | _ => Ok (symbol_code_const x (p_alpha P)) end in
        let! t := piece_codes r in Ok (c :: t)
    end.
  Definition tokenize (str : ustr) : outcome (list Z) :=
    let! l := pieces [0] str in piece_codes l.

  (** * Reading *)
  (** 324-347 [readTransliterationBlank]: the loop.  [blank += c] keeps 16 bits. *)
  Fixpoint tblank_loop (fuel : nat) (f : inf) (blank : ustr) : outcome (ustr * inf) :=
    if eof f then Ok (blank, f)
    else
      match fuel with
      | O => NoFuel
      | S fuel =>
          let! (c, f) := get f in
          if p_isspace P c then tblank_loop fuel f (blank ++ [c mod 2 ^ 16])
          else if c =? 91 then
            let! (d, f) := peek f in
            if d =? 91 then Ok (blank, f)
            else let! (b, f) := readBlock 91 93 f in tblank_loop fuel f (blank ++ b)
          else let! f := unget c f in Ok (blank, f)
      end.
  Definition readTBlank (f : inf) (blanks : list ustr) : outcome (bool * inf * list ustr) :=
    let! (b, f) := tblank_loop (2 + i_size f) f [] in
    Ok (match b with [] => (false, f, blanks) | _ => (true, f, blanks ++ [b]) end).

  (** 364-385: the word behind a word-bound blank *)
  Fixpoint wbound_loop (fuel : nat) (f : inf) (blanks : list ustr) (word : list Z)
    : outcome (inf * list ustr * list Z) :=
    if eof f then Ok (f, blanks, word)
    else
      match fuel with
      | O => NoFuel
      | S fuel =>
          let! (b, f, blanks) := readTBlank f blanks in
          if b : bool then
            let word := word ++ [32] in
            let! (d, f) := peek f in
            if d =? 91 then Ok (f, blanks, word) else wbound_loop fuel f blanks word
          else
            let! (c, f) := get f in
            if c =? 91 then let! f := unget c f in Ok (f, blanks, word)
            else if c =? 92 then let! (d, f) := get f in wbound_loop fuel f blanks (word ++ [d])
            else if c =? 60 then
              let! (s, f) := readBlock 60 62 f in
              wbound_loop fuel f blanks (word ++ [symbol_code s (p_alpha P)])
            else if c =? 0 then let! f := unget c f in Ok (f, blanks, word)
            else wbound_loop fuel f blanks (word ++ [c])
      end.
  (** 391-403: a word without *)
  Fixpoint plain_loop (fuel : nat) (f : inf) (word : list Z) : outcome (inf * list Z) :=
    if eof f then Ok (f, word)
    else
      match fuel with
      | O => NoFuel
      | S fuel =>
          let! (c, f) := get f in
          if p_isspace P c || (c =? 91) || (c =? 0) then let! f := unget c f in Ok (f, word)
          else if c =? 92 then let! (d, f) := get f in plain_loop fuel f (word ++ [d])
          else if c =? 60 then
            let! (s, f) := readBlock 60 62 f in
            plain_loop fuel f (word ++ [symbol_code s (p_alpha P)])
          else plain_loop fuel f (word ++ [c])
      end.

  (** blankqueue, wblankqueue and transliteration_queue, front first *)
  Record queues := mkQ { q_file : inf; q_blanks : list ustr; q_wblanks : list ustr; q_words : list (list Z) }.

  (** 349-411 [readTransliterationWord] *)
  Definition readTWord (q : queues) : outcome (bool * queues) :=
    let stop f := Ok (false, mkQ f (q_blanks q) (q_wblanks q) (q_words q)) in
    if eof (q_file q) then stop (q_file q)
    else
      let! (c, f) := peek (q_file q) in
      if c =? 0 then stop f
      else
        let! (b, f, blanks) := readTBlank f (q_blanks q) in
        let blanks := if b : bool then blanks else blanks ++ [[]] in
        let! (c, f) := peek f in
        let! (wblank, f, blanks, word) :=
          if c =? 91 then
            let! (_, f) := get f in
            let! (wblank, f) := finishWBlank f in
            let! (f, blanks, word) := wbound_loop (2 + i_size f) f blanks [] in
            let! (c, f) := peek f in
            let! f := if c =? 91 then
                        let! (_, f) := get f in
                        let! (_, f) := finishWBlank f in Ok f
                      else Ok f in
            Ok (wblank, f, blanks, word)
          else
            let! (f, word) := plain_loop (2 + i_size f) f [] in
            Ok ([], f, blanks, word) in
        match word with
        | [] => Ok (false, mkQ f blanks (q_wblanks q) (q_words q))
        | _ => Ok (true, mkQ f blanks (q_wblanks q ++ [wblank]) (q_words q ++ [word]))
        end.

  (** * Scanning *)
  (** The local variables, 1408-1420, and what has been written *)
  Record tstate := mkTS {
    x_q : queues; x_out : ustr;
    x_start : nat; x_word : nat; x_pos : nat; x_match : nat;
    x_state : analyses; x_last : ustr; x_diff : Z;
    x_firstupper : bool; x_uppercase : bool; x_have1 : bool; x_have2 : bool }.

  Definition set_q (q : queues) (s : tstate) : tstate :=
    mkTS q (x_out s) (x_start s) (x_word s) (x_pos s) (x_match s) (x_state s) (x_last s) (x_diff s)
      (x_firstupper s) (x_uppercase s) (x_have1 s) (x_have2 s).
  Definition set_out (q : queues) (out : ustr) (s : tstate) : tstate :=
    mkTS q out (x_start s) (x_word s) (x_pos s) (x_match s) (x_state s) (x_last s) (x_diff s)
      (x_firstupper s) (x_uppercase s) (x_have1 s) (x_have2 s).
  Definition set_match (q : queues) (word pos mtch : nat) (last : ustr) (s : tstate) : tstate :=
    mkTS q (x_out s) (x_start s) word pos mtch (x_state s) last (x_diff s)
      (x_firstupper s) (x_uppercase s) (x_have1 s) (x_have2 s).

  (** 1444-1474: the loop joining the words of a match *)
  Fixpoint join_loop (cur_word : nat) (q : queues) (cur_pos match_pos : nat) (last : ustr)
    : outcome (queues * nat * nat * nat * ustr) :=
    match cur_word with
    | O => Ok (q, O, cur_pos, match_pos, last)
    | S k =>
        match q_words q, q_wblanks q with
        | w1 :: w2 :: ws, b1 :: b2 :: bs =>
            let join (cur_pos : nat) :=
              let! b := merge_wblanks b1 b2 in
              join_loop k (mkQ (q_file q) (q_blanks q) (b :: bs) ((w1 ++ [32] ++ w2) :: ws))
                cur_pos match_pos last in
            match k with
            | O =>
                match last with
                | [] => UB
                | _ =>
                    if (cur_pos =? 0)%nat && (List.last last 0 =? 32)
                    then Ok (q, cur_word, cur_pos, length w1, removelast last)
                    else join (cur_pos + (length w1 + 1))%nat
                end
            | S _ => join cur_pos
            end
        | _, _ => UB
        end
    end.
  (** 1438-1478: noting a match *)
  Definition note_match (s : tstate) : outcome tstate :=
    if isFinal (all_finals P) (x_state s) then
      let! last := filterFinals (p_toupper P) (p_sort P) (all_finals P) (p_alpha P) is_escaped (p_weights P)
                     1 (p_maxClasses P) (x_uppercase s) (x_firstupper s) 0 (x_state s) in
      let! (q, cur_word, cur_pos, match_pos, last) := join_loop (x_word s) (x_q s) (x_pos s) (x_match s) last in
      Ok (set_match q cur_word cur_pos (match cur_word with O => cur_pos | _ => match_pos end) last s)
    else Ok s.

  (** 1480-1494: the next symbol and is_end *)
  Definition next_symbol (s : tstate) : outcome (Z * bool * tstate) :=
    match nth_error (q_words (x_q s)) (x_word s) with
    | None => UB
    | Some w =>
        match nth_error w (x_pos s) with
        | Some sym =>
            Ok (sym, false, set_match (x_q s) (x_word s) (S (x_pos s)) (x_match s) (x_last s) s)
        | None =>
            let! (more, q) := if (S (x_word s) =? length (q_words (x_q s)))%nat then readTWord (x_q s)
                              else Ok (true, x_q s) in
            if more : bool then Ok (32, false, set_match q (S (x_word s)) 0 (x_match s) (x_last s) s)
            else Ok (0, true, set_q q s)
        end
    end.

  (** 1496-1511: letter case *)
  Definition note_case (sym : Z) (s : tstate) : tstate :=
    let set f u h1 h2 :=
      mkTS (x_q s) (x_out s) (x_start s) (x_word s) (x_pos s) (x_match s) (x_state s) (x_last s) (x_diff s) f u h1 h2 in
    if isAlphabetic P sym then
      if negb (x_have1 s) then
        if p_isupper P sym then set true (x_uppercase s) true (x_have2 s)
        else set false (x_uppercase s) true true
      else if negb (x_have2 s) then set (x_firstupper s) (p_isupper P sym) true true
      else s
    else s.

  (** State::step_case_override (state.cc:447-455) *)
  Definition override_choice (val : Z) (caseSensitive : bool) : choice :=
    if p_isupper P val && negb caseSensitive
    then over4 val (p_tolower P val) (p_tolower P val) val else one val.
  Definition step_override (val : Z) (st : analyses) : outcome analyses :=
    offer P (override_choice val (beCaseSensitive P st)) st.

  Definition spaces (w : list Z) : Z := Z.of_nat (length (filter (Z.eqb 32) w)).

  (** 1524-1528: how much of the end is unchanged; both lists reversed *)
  Fixpoint same_end (n : nat) (a b : list Z) : nat :=
    match n, a, b with
    | S n, x :: a, y :: b => if x =? y then S (same_end n a b) else O
    | _, _, _ => O
    end.
  (** 1516-1551: the match is put into the word; match_pos below start_pos would wrap around *)
  Definition replace_match (s : tstate) : outcome tstate :=
    match x_last s with
    | [] => Ok (mkTS (x_q s) (x_out s) (S (x_start s)) (x_word s) (x_pos s) (x_match s) (x_state s) [] (x_diff s)
                  (x_firstupper s) (x_uppercase s) (x_have1 s) (x_have2 s))
    | _ :: t =>
        let! m := tokenize t in
        match q_words (x_q s) with
        | [] => UB
        | word :: ws =>
            if (x_match s <? x_start s)%nat || (length word <? x_match s)%nat then UB
            else
              let i := same_end (x_match s - x_start s) (rev m) (rev (firstn (x_match s) word)) in
              let new_word := firstn (x_start s) word ++ m ++ skipn (x_match s) word in
              let start := if (x_match s - i =? x_start s)%nat then S (x_start s) else (x_match s - i)%nat in
              let q := mkQ (q_file (x_q s)) (q_blanks (x_q s)) (q_wblanks (x_q s)) (new_word :: ws) in
              Ok (mkTS q (x_out s) start 0 start (x_match s) (x_state s) []
                    (x_diff s + (spaces new_word - spaces word))
                    (x_firstupper s) (x_uppercase s) (x_have1 s) (x_have2 s))
        end
    end.

  (** 1552-1571: the text of a word; front() of an empty queue is undefined *)
  Fixpoint word_text (drop : bool) (diff count out : Z) (blanks : list ustr) (word : list Z)
    : outcome (ustr * list ustr) :=
    match word with
    | [] => Ok ([], blanks)
    | c :: r =>
        if c =? 32 then
          let! (b, blanks) :=
            if count <=? out + diff then Ok ([32], blanks)
            else match blanks with [] => UB | b :: bs => Ok (b, bs) end in
          let! (t, blanks) := word_text drop diff count (out + 1) blanks r in
          Ok (b ++ t, blanks)
        else if drop && (c =? 126) then word_text drop diff count out blanks r
        else
          let! x := getSymbol c (p_alpha P) in
          let! (t, blanks) := word_text drop diff count out blanks r in
          Ok ((if (0 <? c) && is_escaped c then [92] else []) ++ x ++ t, blanks)
    end.
  (** 1576-1582: blanks left over; [n] is -space_diff *)
  Fixpoint left_over (n : nat) (blanks : list ustr) : outcome (ustr * list ustr) :=
    match n with
    | O => Ok ([], blanks)
    | S n =>
        match blanks with
        | [] => UB
        | b :: bs =>
            let! (t, blanks) := left_over n bs in
            Ok ((if ustr_eq_dec b [32] then [] else b) ++ t, blanks)
        end
    end.
  (** fst_processor.h:497 *)
  Definition WBLANK_FINAL : ustr := [91; 91; 47; 93; 93].
  (** 1542-1585: the first word is written if it has been scanned *)
  Definition write_word (drop : bool) (s : tstate) : outcome tstate :=
    match q_words (x_q s) with
    | [] => UB
    | word :: ws =>
        if (length word <=? x_start s)%nat then
          match q_blanks (x_q s), q_wblanks (x_q s) with
          | b :: blanks, wb :: wbs =>
              let! (t, blanks) := word_text drop (x_diff s) (spaces word) 0 blanks word in
              let! (more, blanks) := left_over (Z.to_nat (- x_diff s)) blanks in
              Ok (mkTS (mkQ (q_file (x_q s)) blanks wbs ws)
                    (x_out s ++ b ++ wb ++ t ++ (match wb with [] => [] | _ => WBLANK_FINAL end) ++ more)
                    0 (x_word s) (x_pos s) (x_match s) (x_state s) (x_last s) 0
                    (x_firstupper s) (x_uppercase s) (x_have1 s) (x_have2 s))
          | _, _ => UB
          end
        else Ok s
    end.
  (** 1586-1594 *)
  Definition restart (init : analyses) (s : tstate) : tstate :=
    mkTS (x_q s) (x_out s) (x_start s) 0 (x_start s) 0 init (x_last s) (x_diff s) false false false false.

  (** 1413-1594 once the queue is not empty *)
  Definition scan_round (drop : bool) (init : analyses) (s : tstate) : outcome tstate :=
    let! s := note_match s in
    let! (sym, is_end, s) := next_symbol s in
    let s := note_case sym s in
    let! st := step_override sym (x_state s) in
    let s := mkTS (x_q s) (x_out s) (x_start s) (x_word s) (x_pos s) (x_match s) st (x_last s) (x_diff s)
               (x_firstupper s) (x_uppercase s) (x_have1 s) (x_have2 s) in
    if (match st with [] => true | _ => false end) || is_end then
      let! s := replace_match s in
      let! s := write_word drop s in
      Ok (restart init s)
    else Ok s.

  (** 1413-1436: [inl] is the end; [inr] goes on, with [true] if there is a word to scan *)
  Definition refill (s : tstate) : outcome (ustr + bool * tstate) :=
    match q_words (x_q s) with
    | _ :: _ => Ok (inr (true, s))
    | [] =>
        let q := x_q s in
        (* 413-420 flushBlanks *)
        let out := x_out s ++ concat (q_blanks q) in
        let! (more, q) := readTWord (mkQ (q_file q) [] (q_wblanks q) []) in
        if more : bool then Ok (inr (true, set_out q out s))
        else
          let out := out ++ concat (q_blanks q) in
          if eof (q_file q) then Ok (inl out)
          else
            let! (c, f) := get (q_file q) in
            Ok (inr (false, set_out (mkQ f [] (q_wblanks q) (q_words q)) (append_cp out c) s))
    end.
  Fixpoint scan_loop (fuel : nat) (drop : bool) (init : analyses) (s : tstate) : outcome ustr :=
    match fuel with
    | O => NoFuel
    | S fuel =>
        let! r := refill s in
        match r with
        | inl out => Ok out
        | inr (true, s) => let! s := scan_round drop init s in scan_loop fuel drop init s
        | inr (false, s) => scan_loop fuel drop init s
        end
    end.
  (** 1405-1596 [transliteration]; [drop] is transliteration_drop_tilde.  It need not
      return: [fuel] bounds the rounds of the main loop. *)
  Definition transliteration (fuel : nat) (drop : bool) (f : inf) : outcome ustr :=
    let! init := initial_state P in
    scan_loop fuel drop init
      (mkTS (mkQ f [] [] []) [] 0 0 0 0 init [] 0 false false false false).
  (** 1391-1403 *)
  Definition postgeneration (fuel : nat) (f : inf) : outcome ustr := transliteration fuel true f.
  Definition intergeneration (fuel : nat) (f : inf) : outcome ustr := transliteration fuel false f.
End TranslitModel.
