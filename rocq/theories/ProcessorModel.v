(** FSTProcessor: look-up, compound analysis and analysis (lttoolbox/fst_processor.cc:422-477,
    567-626, 680-754, 795-1076, 1598-1723, 2467-2505, fst_processor.h:459-475).
    Definitions only.

    State objects are their values ([vns], StateSpec.v; that the objects behave as values is
    C35).  Output is the list of UTF-16 units written.  The ICU functions, std::sort and
    C's tolower are parameters.  Diagnostics on stderr are not modelled. *)
From Verif Require Import Base CompressionModel AlphabetModel StateModel StateSpec FinalsModel
  BufferModel StringModel InputModel StreamModel.

Notation analyses := (list (vns (W:=Z))).

Record processor := mkP {
  p_find : nat -> Z -> list (Z * (nat * Z)); (* the arcs of all transducers and of root *)
  p_root : nat;
  p_fuel : nat;                              (* for epsilonClosure and restartFinals *)
  p_standard : list (nat * Z); p_incond : list (nat * Z);
  p_postblank : list (nat * Z); p_preblank : list (nat * Z);
  p_alpha : alphabet;
  p_letters : list Z;                        (* alphabetic_chars *)
  p_ignored : Z -> bool;                     (* ignored_chars *)
  p_isalnum : Z -> bool; p_isspace : Z -> bool; p_isupper : Z -> bool;
  p_tolower : Z -> Z; p_toupper : Z -> Z;
  p_ctolower : Z -> outcome Z;               (* tolower of <cctype>: defined up to 255 *)
  p_strlower : ustr -> ustr;                 (* StringUtils::tolower *)
  p_sort : list (ustr * Z) -> list (ustr * Z);
  p_caseSensitive : bool; p_dictionaryCase : bool;
  p_weights : bool; p_maxAnalyses : Z; p_maxClasses : Z;
  p_decomp : bool; p_onlyL : Z; p_cpR : Z; p_maxElements : Z;
  p_rcx : Z -> option (list Z)               (* useRestoreChars and rcx_map *)
}.

Section ProcessorModel.
  Context (P : processor).
  Notation find := (p_find P).

  (** 634-643 [initAnalysis]: all_finals.  A node is final in one section only. *)
  Definition all_finals : list (nat * Z) :=
    p_standard P ++ p_incond P ++ p_postblank P ++ p_preblank P.

  (** 422-430 [calcInitial]: initial_state.init(&root); the arcs of root are in [find]. *)
  Definition initial_state : outcome analyses := v_closure find (p_fuel P) 0 [mkV (p_root P) [] false].

  (** fst_processor.h:459-475 [beCaseSensitive] *)
  Definition max_case_insensitive_state_size : Z := 65536.
  Definition beCaseSensitive (st : analyses) : bool :=
    p_caseSensitive P || negb (Z.of_nat (length st) <? max_case_insensitive_state_size).

  (** State::step_case (state.cc:376-386), step (state.cc:286-298, 343-348). *)
  Definition offer (c : choice) (st : analyses) : outcome analyses :=
    v_closure find (p_fuel P) 0 (v_choose find c st).
  Definition case_choice (val : Z) (caseSensitive : bool) : choice :=
    if p_isupper P val && negb caseSensitive then two val (p_tolower P val) else one val.
  Definition step_case (val : Z) (st : analyses) : outcome analyses :=
    offer (case_choice val (beCaseSensitive st)) st.
  Definition step_set (val : Z) (alts : list Z) (st : analyses) : outcome analyses :=
    offer (if existsb (Z.eqb 0) alts then None
           else alternatives ((val, false)
                  :: map (fun a => (a, true)) (filter (fun a => negb (a =? val)) alts))) st.

  (** 465-477 [filterFinals]: casefrom[0] of an empty view is undefined *)
  Definition filter_finals (st : analyses) (casefrom : ustr) : outcome ustr :=
    let! (uppercase, firstupper) :=
      if p_dictionaryCase P then Ok (false, false)
      else
        match casefrom with
        | [] => UB
        | c :: _ =>
            let firstupper := p_isupper P c in
            Ok ((1 <? length casefrom)%nat && firstupper && p_isupper P (last casefrom 0), firstupper)
        end in
    filterFinals (p_toupper P) (p_sort P) all_finals (p_alpha P) is_escaped (p_weights P)
      (p_maxAnalyses P) (p_maxClasses P) uppercase firstupper 0 st.

  (** 620-626 [isAlphabetic] *)
  Definition isAlphabetic (c : Z) : bool := p_isalnum P c || existsb (Z.eqb c) (p_letters P).

  (** * Compounds *)
  Definition MAX_COMBINATIONS : Z := 32767.
  Definition is_final_node (q : nat) : bool :=
    match final_weight q all_finals with Some _ => true | None => false end.
  (** 688-712: the loop; [None] is the early return of an empty string *)
  Fixpoint compound_loop (init : analyses) (st : analyses) (word : ustr) : outcome (option analyses) :=
    match word with
    | [] => Ok (Some st)
    | val :: r =>
        let! st := step_case val st in
        if MAX_COMBINATIONS <? Z.of_nat (length st) then Ok None
        else
          let! st := match r with
                     | [] => Ok st
                     | _ => v_grow (p_fuel P) (v_restart (p_onlyL P) 43 0 is_final_node init) 0 st
                     end in
          match st with [] => Ok None | _ => compound_loop init st r end
    end.
  (** 680-716 [compoundAnalysis] *)
  Definition compoundAnalysis (word : ustr) : outcome ustr :=
    let! init := initial_state in
    let! r := compound_loop init init word in
    match r with
    | None => Ok []
    | Some st => filter_finals (v_prune_compounds (p_cpR P) 43 (p_maxElements P) st) word
    end.

  (** 728-734: stepping over the lowered word *)
  Fixpoint lowered_loop (st : analyses) (word : ustr) : outcome analyses :=
    match word with
    | [] => Ok st
    | val :: r =>
        let! st := step_case val st in
        match st with [] => Ok [] | _ => lowered_loop st r end
    end.
  (** 736-738 and the like *)
  Definition prune_onlyL (st : analyses) : analyses :=
    if p_decomp P && negb (p_onlyL P =? 0) then v_prune_forbidden (p_onlyL P) st else st.
  (** 718-754 [compoundAnalysisOrLowering] *)
  Definition compoundAnalysisOrLowering (word : ustr) : outcome ustr :=
    let! c := if p_decomp P then compoundAnalysis word else Ok [] in
    match c with
    | _ :: _ => Ok c
    | [] =>
        let lowered := p_strlower P word in
        let! init := initial_state in
        let! st := lowered_loop init lowered in
        let! n := filter_finals (prune_onlyL st) lowered in
        match n with
        | _ :: _ => Ok n
        | [] => if p_decomp P then compoundAnalysis lowered else Ok []
        end
    end.

  (** * Look-up *)
  (** 1606, 2495: the symbol of a piece *)
  Definition piece_symbol (s : ustr) : Z :=
    match s with [c] => c | _ => symbol_code s (p_alpha P) end.
  (** current_state.step(val, beCaseSensitive(current_state)): the boolean is the
      alternative symbol, state.cc:343-348 *)
  Definition step_bool (val : Z) (st : analyses) : outcome analyses :=
    offer (two val (if beCaseSensitive st then 1 else 0)) st.
  Definition finals_array (upper firstupper : bool) (st : analyses) : outcome (list ustr) :=
    filterFinalsArray (p_toupper P) (p_sort P) all_finals (p_alpha P) is_escaped (p_weights P)
      (p_maxAnalyses P) (p_maxClasses P) upper firstupper 0 st.
  (** word[0], word[1] of a view; beyond its end is undefined *)
  Definition word_case (word : ustr) : outcome (bool * bool) :=
    match word with
    | [] => UB
    | c :: r =>
        let firstupper := p_isupper P c in
        if firstupper then match r with [] => UB | d :: _ => Ok (p_isupper P d, true) end
        else Ok (false, false)
    end.
  (** the pieces symbol_iter gives; [mem] is what follows the view in memory *)
  Definition pieces (mem : list Z) (word : ustr) : outcome (list ustr) :=
    let! it := si_begin (word ++ mem) (length word) in
    si_loop (S (length word)) (word ++ mem) (length word) it.

  (** 2487-2505 [lookup] *)
  Fixpoint lookup_loop (st : analyses) (l : list ustr) : outcome analyses :=
    match l with
    | [] => Ok st
    | s :: r =>
        let! st := match st with [] => Ok [] | _ => step_bool (piece_symbol s) st end in
        lookup_loop st r
    end.
  Definition lookup (mem : list Z) (word : ustr) : outcome (bool * list ustr) :=
    let! init := initial_state in
    let! (uppercase, firstupper) := word_case word in
    let! l := pieces mem word in
    let! st := lookup_loop init l in
    let! result := finals_array uppercase firstupper st in
    Ok (match result with [] => false | _ => true end, result).

  (** 1598-1622 [step_biltrans]: [None] is "return false" in the loop.  filterFinalsArray
      writes over [result]. *)
  Fixpoint biltrans_loop (upper firstupper : bool) (st : analyses) (result : list ustr) (queue : ustr)
      (l : list ustr) : outcome (option (list ustr * ustr)) :=
    match l with
    | [] => Ok (Some (result, queue))
    | s :: r =>
        let! st := match st with [] => Ok [] | _ => step_bool (piece_symbol s) st end in
        let! result := if isFinal all_finals st then finals_array upper firstupper st else Ok result in
        match st, result with
        | [], [] => Ok None
        | [], _ => biltrans_loop upper firstupper st result (queue ++ s) r
        | _, _ => biltrans_loop upper firstupper st result queue r
        end
    end.
  Definition step_biltrans (mem : list Z) (word : ustr) : outcome (option (list ustr * ustr)) :=
    let! init := initial_state in
    let! (uppercase, firstupper) := word_case word in
    let! l := pieces mem word in
    let! r := biltrans_loop uppercase firstupper init [] [] l in
    Ok (match r with Some ([], _) => None | _ => r end).

  (** 1707-1723 [compose] *)
  Fixpoint join_forms (l : list ustr) (queue : ustr) : ustr :=
    match l with
    | [] => []
    | [x] => x ++ queue
    | x :: r => x ++ queue ++ [47] ++ join_forms r queue
    end.
  Definition compose_forms (l : list ustr) (queue : ustr) (delim mark : bool) : ustr :=
    (if delim then [94] else []) ++ (if mark then [61] else []) ++ join_forms l queue
      ++ (if delim then [36] else []).
  (** 1668-1705 [biltrans] ([full] = false), 1624-1664 [biltransfull]; the unsigned
      end_point is size - 1 or size - 2 modulo 2^32; reading behind the end of the view
      is undefined and a start behind it throws *)
  Definition biltrans (full : bool) (input : ustr) (with_delim : bool) : outcome ustr :=
    let n := Z.of_nat (length input) in
    let start := if with_delim then 1 else 0 in
    let endp := u32 (if with_delim then n - 2 else n - 1) in
    if n <=? start then UB
    else if nth (Z.to_nat start) input 0 =? 42 then Ok input
    else
      let mark := nth (Z.to_nat start) input 0 =? 61 in
      let start := if mark then start + 1 else start in
      if n <? start then Throw
      else
        let count := Z.min (u32 (endp - start)) (n - start) in
        let word := firstn (Z.to_nat count) (skipn (Z.to_nat start) input) in
        let mem := skipn (Z.to_nat count) (skipn (Z.to_nat start) input) in
        let! r := step_biltrans mem word in
        match r with
        | None => Ok (if with_delim then [94; 64] ++ skipn 1 input else [64] ++ input)
        | Some (result, queue) =>
            if full && (start <? u32 (endp - 3)) then Ok [94; 36]
            else Ok (compose_forms result queue with_delim mark)
        end.

  (** * Analysis *)
  (** 567-579 [lastBlank] *)
  Fixpoint last_blank (i found : nat) (str : ustr) : nat :=
    match str with
    | [] => found
    | c :: r => last_blank (S i) (if existsb (Z.eqb c) (p_letters P) then found else i) r
    end.
  Definition lastBlank (str : ustr) : nat := last_blank 0 0 str.

  (** 594-612 [printChar] *)
  Definition printChar (val : Z) (blanks : list ustr) : ustr * list ustr :=
    if p_isspace P val then
      match blanks with b :: bs => (b, bs) | [] => (append_cp [] val, []) end
    else ((if is_escaped val then [92] else []) ++ (if val =? 0 then [] else append_cp [] val), blanks).

  (** 2467-2485 [firstNotAlpha]: UCharCharacterIterator::next32PostInc *)
  Fixpoint firstNotAlpha (sf : ustr) : nat * nat :=
    match sf with
    | [] => (0, 0)%nat
    | c :: r =>
        match r with
        | d :: r' =>
            if (55296 <=? c) && (c <? 56320) && (56320 <=? d) && (d <? 57344) then
              if isAlphabetic ((c - 55296) * 1024 + (d - 56320) + 65536)
              then let '(i, j) := firstNotAlpha r' in (S i, S (S j)) else (0, 0)%nat
            else if isAlphabetic c then let '(i, j) := firstNotAlpha r in (S i, S j) else (0, 0)%nat
        | [] => if isAlphabetic c then (1, 1)%nat else (0, 0)%nat
        end
    end.

  Record analyser := mkA {
    a_src : source;
    a_state : analyses;
    a_lf : ustr; a_sf : ustr;
    a_cpL : bool;                                (* seen_cpL *)
    a_start : Z;                                 (* last_start *)
    a_last : Z; a_last_size : nat;
    a_incond : bool; a_postblank : bool; a_preblank : bool
  }.
  Notation read := (readAnalysis (p_ignored P) (p_alpha P)).
  Context (rounds : nat).

  (** do { getSymbol(sf, val) } while((val = readAnalysis(input)) && isAlphabetic(val)) *)
  Fixpoint alphabetic_run (fuel : nat) (val : Z) (sf : ustr) (s : source) : outcome (Z * ustr * source) :=
    match fuel with
    | O => NoFuel
    | S fuel =>
        let! x := getSymbol val (p_alpha P) in
        let! (val, s) := read s in
        if negb (val =? 0) && isAlphabetic val then alphabetic_run fuel val (sf ++ x) s
        else Ok (val, sf ++ x, s)
    end.

  Definition set_pos (p : Z) (s : source) : source := mkS (s_file s) (setPos p (s_buf s)) (s_blanks s).
  Definition go_back (n : Z) (s : source) : source := mkS (s_file s) (back n (s_buf s)) (s_blanks s).

  (** 969-991, 993-1014: an unknown word, or the first unit of what was read *)
  Definition unknown_word (start : Z) (sf : ustr) (s : source) : outcome (ustr * source) :=
    let '(cps, units) := firstNotAlpha sf in
    match cps with
    | O => Ok (writeEscaped (firstn 1 sf), set_pos (1 + start) s)
    | _ =>
        let word := firstn units sf in
        let! lf := compoundAnalysisOrLowering word in
        Ok (match lf with [] => printUnknownWord word | _ => printWord word lf end,
            set_pos (start + Z.of_nat cps) s)
    end.
  (** sf.substr(0, last_size) with its blanks, then back to before the symbol after it *)
  Definition known_word (last : Z) (size : nat) (sf lf : ustr) (s : source) : outcome (ustr * source) :=
    let! (out, blanks) := printWordPopBlank (firstn size sf) lf (s_blanks s) in
    Ok (out, go_back 1 (set_pos last (mkS (s_file s) (s_buf s) blanks))).

  (** 816-889: what is noted before the step *)
  Definition note_final (val : Z) (a : analyser) : outcome analyser :=
    let pos := getPos (s_buf (a_src a)) in
    let size := length (a_sf a) in
    let take (incond postblank preblank : bool) :=
      let st := prune_onlyL (a_state a) in
      let! lf := filter_finals st (a_sf a) in
      Ok (mkA (a_src a) st lf (a_sf a) (a_cpL a) (a_start a) pos size incond postblank preblank) in
    if isFinal all_finals (a_state a) then
      if isFinal (p_incond P) (a_state a) then take true (a_postblank a) (a_preblank a)
      else if isFinal (p_postblank P) (a_state a) then take (a_incond a) true (a_preblank a)
      else if isFinal (p_preblank P) (a_state a) then take (a_incond a) (a_postblank a) true
      else if negb (isAlphabetic val) then take false false false
      else Ok (mkA (a_src a) (a_state a) (a_lf a) (a_sf a)
                 (a_cpL a || (p_decomp P && negb (p_onlyL P =? 0)
                              && existsb (fun s => existsb (fun x => fst x =? p_onlyL P) (v_seq s)) (a_state a)))
                 (a_start a) (a_last a) (a_last_size a) (a_incond a) (a_postblank a) (a_preblank a))
    else if match a_sf a with [] => p_isspace P val | _ => false end then
      Ok (mkA (a_src a) (a_state a) [47; 42] (a_sf a) (a_cpL a) (a_start a) pos size false false false)
    else Ok a.

  (** 891-916: the step *)
  Definition take_step (val : Z) (st : analyses) : outcome analyses :=
    match p_rcx P val with
    | Some l =>
        if negb (p_isupper P val) || beCaseSensitive st then step_set val l st
        else
          match p_rcx P (p_tolower P val) with
          | Some _ =>
              let! c := p_ctolower P val in
              match p_rcx P c with
              | Some l' => step_set val (l ++ [c] ++ l') st
              | None => UB
              end
          | None => let! c := p_ctolower P val in step_set val (l ++ [c]) st
          end
    | None => step_case val st
    end.

  (** 926-952: blank-crossing compounds; the result is the compound's analysis, or nothing *)
  Definition crossing (val : Z) (a : analyser) : outcome (ustr * Z * ustr * source) :=
    if a_cpL a && isAlphabetic val && match a_sf a with [] => false | _ => true end
       && (a_last_size a <=? lastBlank (a_sf a))%nat
    then
      let! (val', sf, s) := alphabetic_run rounds val (a_sf a) (a_src a) in
      let! lf := compoundAnalysis sf in
      match lf with
      | [] => Ok ([], val, a_sf a, go_back (Z.of_nat (length sf - length (a_sf a))) s)
      | _ =>
          let s := go_back 1 s in
          let! v := BufferModel.peek (s_buf s) in
          Ok (lf, v, sf, s)
      end
    else Ok ([], val, a_sf a, a_src a).

  (** 955-1041: the state died at [val]; the output, the new [val], the source *)
  Definition emit (val : Z) (a : analyser) : outcome (ustr * Z * source) :=
    let! (cross, val, sf, s) := crossing val a in
    let known s := known_word (a_last a) (a_last_size a) sf (a_lf a) s in
    match cross with
    | _ :: _ =>
        let! (out, blanks) := printWordPopBlank sf cross (s_blanks s) in
        Ok (out, val, mkS (s_file s) (s_buf s) blanks)
    | [] =>
        if negb (isAlphabetic val) && match sf with [] => true | _ => false end then
          let '(out, blanks) := printChar val (s_blanks s) in
          Ok (out, val, mkS (s_file s) (s_buf s) blanks)
        else if a_postblank a then
          let! (out, s) := known s in Ok (out ++ [32], val, s)
        else if a_preblank a then
          let! (out, s) := known s in Ok ([32] ++ out, val, s)
        else if a_incond a then
          let! (out, s) := known s in Ok (out, val, s)
        else if isAlphabetic val
                && ((lastBlank sf <? a_last_size a)%nat || match a_lf a with [] => true | _ => false end) then
          let! (val, sf, s) := alphabetic_run rounds val sf s in
          let! (out, s) := unknown_word (a_start a) sf s in Ok (out, val, s)
        else
          match a_lf a with
          | [] => let! (out, s) := unknown_word (a_start a) sf s in Ok (out, val, s)
          | _ => let! (out, s) := known s in Ok (out, val, s)
          end
    end.

  (** 811-1055: one round; the value tested by while(val) *)
  Definition round (init : analyses) (a : analyser) : outcome (ustr * Z * analyser) :=
    let! (val, s) := read (a_src a) in
    let! a := note_final val (mkA s (a_state a) (a_lf a) (a_sf a) (a_cpL a) (a_start a) (a_last a)
                                 (a_last_size a) (a_incond a) (a_postblank a) (a_preblank a)) in
    let! st := take_step val (a_state a) in
    match st with
    | _ :: _ =>
        let! x := if val =? 0 then Ok [] else getSymbol val (p_alpha P) in
        Ok ([], val, mkA (a_src a) st (a_lf a) (a_sf a ++ x) (a_cpL a) (a_start a) (a_last a)
                         (a_last_size a) (a_incond a) (a_postblank a) (a_preblank a))
    | [] =>
        let! (out, val, s) := emit val a in
        let s := if (val =? 0) && negb (isEmpty (s_buf s)) then set_pos (a_last a + 1) s else s in
        Ok (out, val, mkA s init [] [] false (getPos (s_buf s)) (a_last a) (a_last_size a)
                        false false false)
    end.
  Fixpoint analysis_loop (fuel : nat) (init : analyses) (a : analyser) : outcome (ustr * source) :=
    match fuel with
    | O => NoFuel
    | S fuel =>
        let! (out, val, a) := round init a in
        if val =? 0 then
          Ok (out ++ concat (s_blanks (a_src a)), mkS (s_file (a_src a)) (s_buf (a_src a)) [])
        else
          let! (more, s) := analysis_loop fuel init a in
          Ok (out ++ more, s)
    end.
  (** 795-1060 [analysis], not in null-flush mode *)
  Definition analysis (s : source) : outcome (ustr * source) :=
    let! init := initial_state in
    analysis_loop rounds init (mkA s init [] [] false (getPos (s_buf s)) 0 0 false false false).

  (** 1062-1076 [analysis_wrapper_null_flush]; emptying the buffer is the move to its end *)
  Definition empty_buffer (s : source) : source :=
    mkS (s_file s) (mkB (b_size (s_buf s)) (b_buf (s_buf s)) (b_last (s_buf s)) (b_last (s_buf s)))
        (s_blanks s).
  Fixpoint null_flush (fuel : nat) (s : source) : outcome (ustr * source) :=
    if eof (s_file s) then Ok ([], s)
    else
      match fuel with
      | O => NoFuel
      | S fuel =>
          let! (out, s) := analysis s in
          let! (more, s) := null_flush fuel (empty_buffer s) in
          Ok (out ++ [0] ++ more, s)
      end.
End ProcessorModel.
