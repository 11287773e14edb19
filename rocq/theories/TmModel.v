(** Looking a text up in a translation memory: FSTProcessor::tm_analysis and what it reads and
    writes (fst_processor.cc:244-322, 412-420, 581-592, 1093-1258, state.cc:680-783), as
    lt-tmxproc uses it.  Definitions only.

    As in ProcessorModel.v: State objects are their values, output is the list of UTF-16 units
    written.  ICU's u_ispunct and u_isdigit are parameters.  initTMAnalysis (645-654): every
    final node of every transducer, [all_finals]. *)
From Verif Require Import Base CompressionModel AlphabetModel StateModel StateSpec FinalsModel BufferModel StringModel InputModel StreamModel ProcessorModel.

Section Tm.
Context (P : processor) (ispunct isdigit : Z -> bool).
(** TranslationMemoryMode: tm_space *)
Context (space_mode : bool).

(** * state.cc:680-783 [filterFinalsTM] *)
(** 688-702: "/" and the text of every final state *)
Fixpoint tm_text (seq : list (Z * Z)) : outcome ustr :=
  match seq with
  | [] => Ok []
  | (c, _) :: r =>
      let! x := getSymbol c (p_alpha P) in
      let! t := tm_text r in
      Ok ((if is_escaped c then [92] else []) ++ x ++ t)
  end.
Fixpoint tm_texts (st : analyses) : outcome ustr :=
  match st with
  | [] => Ok []
  | s :: r =>
      match final_weight (v_where s) (all_finals P) with
      | None => tm_texts r
      | Some _ =>
          let! x := tm_text (v_seq s) in
          let! t := tm_texts r in
          Ok (47 :: x ++ t)
      end
  end.
(** 704-719: the fragments before and after each ")" *)
Fixpoint fragments (t : ustr) : ustr * list ustr :=
  match t with
  | [] => ([], [])
  | c :: r =>
      let '(f, fs) := fragments r in
      if c =? 41 then ([], f :: fs) else (c :: f, fs)
  end.
(** 725-737: a mark; substr(1) of an empty string throws *)
Definition mark_blank (blanks : list ustr) : outcome (ustr * list ustr) :=
  match blanks with
  | [] => Ok ([32], [])
  | [] :: _ => Throw
  | (_ :: b) :: r => Ok (removelast b, r)
  end.
(** 746-762: the number from place j + 3 to the end; int *)
Fixpoint ref_number (num : Z) (l : ustr) : outcome (option Z) :=
  match l with
  | [] => Ok (Some num)
  | c :: r =>
      if isdigit c then
        let num := num * 10 + (c - 48) in
        if 2 ^ 31 <=? num then UB else ref_number num r
      else Ok None
  end.
(** 741-771: from the place [j - 1] back to the first *)
Fixpoint find_ref (numbers : list ustr) (f : ustr) (j : nat) : outcome (option ustr) :=
  match j with
  | O => Ok None
  | S j =>
      if (3 <? length f - j)%nat && (nth j f 0 =? 92) && (nth (S j) f 0 =? 64) && (nth (S (S j)) f 0 =? 40) then
        let! n := ref_number 0 (skipn (j + 3) f) in
        match n with
        | None => find_ref numbers f j
        | Some n =>
            if (n <? 1) || (Z.of_nat (length numbers) <? n) then UB
            else Ok (Some (firstn j f ++ nth (Z.to_nat (n - 1)) numbers []))
        end
      else find_ref numbers f j
  end.
(** 721-779 for a fragment that is not the last *)
Definition fragment (blanks numbers : list ustr) (f : ustr) : outcome (ustr * list ustr) :=
  if (2 <=? length f)%nat && (nth (length f - 2) f 0 =? 40) && (nth (length f - 1) f 0 =? 35) then
    let! (w, blanks) := mark_blank blanks in
    Ok (firstn (length f - 2) f ++ w, blanks)
  else
    let! r := find_ref numbers f (length f) in
    Ok (match r with Some t => t | None => f ++ [41] end, blanks).
Fixpoint fill_fragments (blanks numbers : list ustr) (f : ustr) (fs : list ustr) : outcome (ustr * list ustr) :=
  match fs with
  | [] => Ok (f, blanks)
  | g :: gs =>
      let! (t, blanks) := fragment blanks numbers f in
      let! (u, blanks) := fill_fragments blanks numbers g gs in
      Ok (t ++ u, blanks)
  end.
Definition filterFinalsTM (st : analyses) (blanks numbers : list ustr) : outcome (ustr * list ustr) :=
  let! t := tm_texts st in
  let '(f, fs) := fragments t in
  fill_fragments blanks numbers f fs.

(** * fst_processor.cc:244-322 [readTMAnalysis] *)
Definition number_name : ustr := [60; 110; 62].  (* <n> *)
(** What is kept while a text is read: the input, the numbers read, isLastBlankTM *)
Record reader := mkTR { r_src : source; r_numbers : list ustr; r_blank : bool }.
(** 301-306: units are cut to 16 bits *)
Fixpoint digit_run (fuel : nat) (val : Z) (f : inf) (ws : ustr) : outcome (ustr * Z * inf) :=
  match fuel with
  | O => NoFuel
  | S fuel =>
      let ws := ws ++ [val mod 2 ^ 16] in
      let! (val, f) := get f in
      if isdigit val then digit_run fuel val f ws else Ok (ws, val, f)
  end.
Definition readTM (r : reader) : outcome (Z * reader) :=
  let s := r_src r in
  let give (val : Z) (f : inf) (blanks : list ustr) (ns : list ustr) (blank : bool) : outcome (Z * reader) :=
    let! b := add val (s_buf s) in Ok (val, mkTR (mkS f b blanks) ns blank) in
  if negb (isEmpty (s_buf s)) then
    let! (v, b) := next (s_buf s) in Ok (v, mkTR (mkS (s_file s) b (s_blanks s)) (r_numbers r) false)
  else
    let! (val, f) := get (s_file s) in
    if eof f then Ok (0, mkTR (mkS f (s_buf s) (s_blanks s)) (r_numbers r) false)
    else if is_escaped val || isdigit val then
      if val =? 60 then
        let! (tag, f) := readBlock 60 62 f in
        give (symbol_code tag (p_alpha P)) f (s_blanks s) (r_numbers r) false
      else if val =? 91 then
        let! (val, f) := get f in
        let! (w, f) :=
          if val =? 91 then finishWBlank f
          else let! f := unget val f in readBlock 91 93 f in
        give 32 f (s_blanks s ++ [w]) (r_numbers r) true
      else if val =? 92 then
        let! (val, f) := get f in
        give val f (s_blanks s) (r_numbers r) false
      else if (48 <=? val) && (val <=? 57) then
        let! (ws, val, f) := digit_run (2 + i_size f) val f [] in
        let! f := unget val f in
        give (symbol_code number_name (p_alpha P)) f (s_blanks s) (r_numbers r ++ [ws]) false
      else Throw
    else give val f (s_blanks s) (r_numbers r) false.

(** * fst_processor.cc:1109-1258 [tm_analysis], not in null-flush mode *)
(** 1146-1157, 1183-1194: what [val] adds to sf *)
Definition surface (val : Z) (r : reader) : outcome ustr :=
  if val =? -1 then match rev (r_numbers r) with [] => UB | n :: _ => Ok n end
  else if r_blank r && (val =? 32) then match rev (s_blanks (r_src r)) with [] => UB | b :: _ => Ok b end
  else getSymbol val (p_alpha P).
Definition gap (val : Z) : bool := p_isspace P val || ispunct val.
Record memory := mkTM { m_read : reader; m_state : analyses; m_lf : ustr; m_sf : ustr; m_last : Z }.
Definition position (r : reader) : Z := getPos (s_buf (r_src r)).
Definition without_numbers (r : reader) : reader := mkTR (r_src r) [] (r_blank r).

(** 1123-1140; substr(1) of an empty string throws *)
Definition tm_note (val : Z) (m : memory) : outcome memory :=
  let r := m_read m in
  let s := r_src r in
  if isFinal (all_finals P) (m_state m) then
    if ispunct val || (space_mode && p_isspace P val) then
      let! (t, blanks) := filterFinalsTM (m_state m) (s_blanks s) (r_numbers r) in
      match t with
      | [] => Throw
      | _ :: lf => Ok (mkTM (mkTR (mkS (s_file s) (s_buf s) blanks) [] (r_blank r)) (m_state m) lf (m_sf m) (position r))
      end
    else Ok m
  else if match m_sf m with [] => p_isspace P val | _ => false end then
    Ok (mkTM r (m_state m) (m_lf m) (m_sf m) (position r))
  else Ok m.

(** 1181-1196: the rest of the word *)
Fixpoint word_run (fuel : nat) (val : Z) (sf : ustr) (r : reader) : outcome (Z * ustr * reader) :=
  match fuel with
  | O => NoFuel
  | S fuel =>
      let! x := surface val r in
      let! (val, r) := readTM r in
      if negb (val =? 0) && negb (gap val) then word_run fuel val (sf ++ x) r
      else Ok (val, sf ++ x, r)
  end.
(** 1207-1214, 1234-1241 *)
Definition drop_queue (r : reader) : reader :=
  let s := r_src r in
  mkTR (mkS (s_file s) (s_buf s) (if r_blank r then match rev (s_blanks s) with [] => [] | b :: _ => [b] end else []))
       (r_numbers r) (r_blank r).
Definition on_source (f : source -> source) (r : reader) : reader := mkTR (f (r_src r)) (r_numbers r) (r_blank r).
(** 1160-1251: the state died at [val]; [false] is the return in 1198-1202 *)
Definition tm_emit (rounds : nat) (val : Z) (m : memory) : outcome (ustr * bool * reader) :=
  let r := m_read m in
  let s := r_src r in
  let sf := m_sf m in
  let no_lf := match m_lf m with [] => true | _ => false end in
  if gap val && match sf with [] => true | _ => false end then
    if p_isspace P val then
      match s_blanks s with
      | [] => Ok (append_cp [] val, true, r)
      | _ => Ok (concat (s_blanks s), true, on_source (fun s => mkS (s_file s) (s_buf s) []) r)
      end
    else Ok ((if is_escaped val then [92] else []) ++ append_cp [] val, true, r)
  else if negb (gap val)
          && ((Z.of_nat (lastBlank P sf) <? (Z.of_nat (length sf) - diffPrevPos (m_last m) (s_buf s)) mod 2 ^ 64) || no_lf) then
    let! (val, sf, r) := word_run rounds val sf r in
    if val =? 0 then Ok (sf, false, r)
    else Ok (sf, true, drop_queue (on_source (go_back 1) r))
  else if no_lf then Ok (sf, true, drop_queue (on_source (go_back 1) r))
  else Ok ([91] ++ m_lf m ++ [93], true, on_source (fun s => go_back 1 (set_pos (m_last m) s)) r).

Fixpoint tm_loop (rounds fuel : nat) (init : analyses) (m : memory) : outcome (ustr * reader) :=
  match fuel with
  | O => NoFuel
  | S fuel =>
      let! (val, r) := readTM (m_read m) in
      if val =? 0 then
        (* 1256-1257 [flushBlanks] *)
        Ok (concat (s_blanks (r_src r)), on_source (fun s => mkS (s_file s) (s_buf s) []) r)
      else
        let! m := tm_note val (mkTM r (m_state m) (m_lf m) (m_sf m) (m_last m)) in
        (* 1142: step_case(val, false) *)
        let! st := offer P (case_choice P val false) (m_state m) in
        match st with
        | _ :: _ =>
            let! x := surface val (m_read m) in
            tm_loop rounds fuel init (mkTM (m_read m) st (m_lf m) (m_sf m ++ x) (m_last m))
        | [] =>
            let! (out, on, r) := tm_emit rounds val m in
            if on : bool then
              let! (more, r) := tm_loop rounds fuel init (mkTM (without_numbers r) init [] [] (m_last m)) in
              Ok (out ++ more, r)
            else Ok (out, r)
        end
  end.
Definition tm_analysis (rounds : nat) (r : reader) : outcome (ustr * reader) :=
  let! init := initial_state P in
  tm_loop rounds rounds init (mkTM r init [] [] 0).
(** 1093-1106 [tm_wrapper_null_flush] *)
Fixpoint tm_flush (rounds fuel : nat) (r : reader) : outcome (ustr * reader) :=
  if eof (s_file (r_src r)) then Ok ([], r)
  else
    match fuel with
    | O => NoFuel
    | S fuel =>
        let! (out, r) := tm_analysis rounds r in
        let! (more, r) := tm_flush rounds fuel r in
        Ok (out ++ [0] ++ more, r)
    end.
(** lt_tmxproc.cc:39, 54 and 1112-1115: after the wrapper the rest of [tm_analysis] follows *)
Definition lt_tmxproc (rounds : nat) (bytes : list Z) : outcome ustr :=
  let! (out, r) := tm_flush rounds rounds (mkTR (new_source (open_file bytes)) [] false) in
  let! (more, _) := tm_analysis rounds r in
  Ok (out ++ more).
End Tm.
