(** FSTProcessor: bilingual look-up of a stream (lttoolbox/fst_processor.cc:626-632, 1725-1862)
    and of a word without its queue (1960-1995).  Definitions only.

    As in ProcessorModel.v: State objects are their values, output is the list of UTF-16
    units written, flushing is not modelled. *)
From Verif Require Import Base CompressionModel AlphabetModel StateModel StateSpec FinalsModel
  BufferModel StringModel InputModel StreamModel ProcessorModel GenerationModel.

(** The processor with another alphabet: the stream reader includes the tags it meets in
    the processor's own alphabet (1729-1730) *)
Definition with_alpha (P : processor) (a : alphabet) : processor :=
  mkP (p_find P) (p_root P) (p_fuel P) (p_standard P) (p_incond P) (p_postblank P) (p_preblank P)
    a (p_letters P) (p_ignored P) (p_isalnum P) (p_isspace P) (p_isupper P) (p_tolower P) (p_toupper P)
    (p_ctolower P) (p_strlower P) (p_sort P) (p_caseSensitive P) (p_dictionaryCase P)
    (p_weights P) (p_maxAnalyses P) (p_maxClasses P) (p_decomp P) (p_onlyL P) (p_cpR P) (p_maxElements P)
    (p_rcx P).

(** 630-631 [load]: "<ANY_CHAR>"; [p_alpha] is the alphabet after loading *)
Definition ANY_CHAR : ustr := [60; 65; 78; 89; 95; 67; 72; 65; 82; 62].
Definition any_char (P : processor) : Z := symbol_code ANY_CHAR (p_alpha P).

Section BilingualModel.
  Context (P : processor) (any : Z).

  (** 1786-1791 *)
  Definition bil_choice (c : Z) (caseSensitive : bool) : choice :=
    if caseSensitive then over3 c any c else over4 c (p_tolower P c) any c.
  (** 1813-1819 *)
  Definition retry_choice (c : Z) (caseSensitive : bool) : choice :=
    if isTag c || caseSensitive then over3 c any c else over3 (p_tolower P c) any (p_tolower P c).
  (** 1782-1800, 1811-1827; the text [source] made in 1784-1785 is not used *)
  Fixpoint bil_loop (pick : Z -> bool -> choice) (upper firstupper : bool) (i : nat) (st : analyses)
      (result : list ustr) (queue_start : nat) (l : list Z) : outcome (list ustr * nat) :=
    match l with
    | [] => Ok (result, queue_start)
    | c :: r =>
        let! st := offer P (pick c (beCaseSensitive P st)) st in
        let! (result, queue_start) :=
          if isFinal (all_finals P) st
          then (let! a := finals_array P upper firstupper st in Ok (a, i))
          else Ok (result, queue_start) in
        bil_loop pick upper firstupper (S i) st result queue_start r
    end.
  (** 1772, 1781: the state before the first symbol *)
  Definition bil_start (mark : Z) : outcome analyses :=
    let! init := initial_state P in
    if mark =? 35 then offer P (one 35) init else Ok init.
  (** 1801-1804, 1828-1831 *)
  Definition whole_only (mode : gmode) (symbols : list Z) : bool :=
    negb (existsb isTag symbols) || match mode with gm_all | gm_bilgen => true | _ => false end.
  Definition checked (mode : gmode) (symbols : list Z) (r : list ustr * nat) : list ustr * nat :=
    if whole_only mode symbols && (snd r + 1 <? length symbols)%nat then ([], snd r) else r.
  (** 1772-1832 *)
  Definition bil_lookup (mode : gmode) (mark : Z) (symbols : list Z) : outcome (list ustr * nat) :=
    let firstupper := (0 <? nth 0 symbols 0) && p_isupper P (nth 0 symbols 0) in
    let uppercase := firstupper && (1 <? length symbols)%nat && (0 <? nth 1 symbols 0)
                       && p_isupper P (nth 1 symbols 0) in
    let! st := bil_start mark in
    let! r := bil_loop bil_choice uppercase firstupper 0 st [] 0 symbols in
    let r := checked mode symbols r in
    match fst r, mode with
    | [], gm_bilgen | [], gm_all =>
        let! st := bil_start mark in
        let! r := bil_loop retry_choice false false 0 st [] (snd r) symbols in
        Ok (checked mode symbols r)
    | _, _ => Ok r
    end.

  (** 1840-1844: the text of the symbols and, behind the symbol [queue_start], its size *)
  Fixpoint bil_source (i queue_start : nat) (source : ustr) (queue_pos : nat) (l : list Z)
    : outcome (ustr * nat) :=
    match l with
    | [] => Ok (source, queue_pos)
    | c :: r =>
        let! t := getSymbol c (p_alpha P) in
        let source := source ++ (if is_escaped c || ((i =? 0)%nat && (c =? 42)) then [92] else []) ++ t in
        bil_source (S i) queue_start source (if (i =? queue_start)%nat then length source else queue_pos) r
    end.
  (** 1764-1854: what is written between '^' (or '/') and '$' *)
  Definition bil_word (mode : gmode) (rd : reading) : outcome ustr :=
    match r_symbols rd with
    | [] => Ok []
    | symbols =>
        let! (result, queue_start) := bil_lookup mode (r_mark rd) symbols in
        let '(source, queue_pos) := if r_mark rd =? 35 then ([35], 1%nat) else ([], 0%nat) in
        let! (source, queue_pos) := bil_source 0 queue_start source queue_pos symbols in
        Ok (source ++ [47] ++
            match result with
            | [] => (match mode with gm_all => [35] | _ => [64] end) ++ source
            | _ => compose_forms result (skipn queue_pos source) false false
            end)
    end.
  (** 1740-1855: one unit *)
  Definition bil_unit (forms keep : bool) (mode : gmode) (l : list reading) : outcome ustr :=
    let before := if keep then
                    match l with
                    | [] => []
                    | x :: r => [94] ++ r_content x ++ match r with [] => [36] | _ => [47] end
                    end
                  else [] in
    match nth_error l (if forms || keep then 1 else 0) with
    | None => Ok before
    | Some rd =>
        let! t :=
          if r_mark rd =? 42
          then Ok ([42] ++ r_content rd ++ [47] ++ (match mode with gm_clean => [] | _ => [42] end) ++ r_content rd)
          else bil_word mode rd in
        Ok (before ++ (if keep then [] else [94]) ++ t ++ [36])
    end.
End BilingualModel.

(** 1734-1862 [bilingual] *)
Fixpoint bil_stream (P : processor) (forms keep : bool) (mode : gmode) (fuel : nat) (r : reader) : outcome ustr :=
  if rd_eof r then Ok []
  else
    match fuel with
    | O => NoFuel
    | S fuel =>
        let! r := next_unit r in
        let! word := bil_unit (with_alpha P (match rd_alpha r with Some a => a | None => p_alpha P end))
                       (any_char P) forms keep mode (rd_readings r) in
        let! rest := bil_stream P forms keep mode fuel r in
        Ok (rd_blank r ++ rd_wblank r ++ word ++ (if rd_null r then [0] else []) ++ rest)
    end.
Definition bilingual (P : processor) (forms keep : bool) (mode : gmode) (f : inf) : outcome ustr :=
  bil_stream P forms keep mode (3 + i_size f) (new_reader f (Some (p_alpha P)) true).

(** 1960-1995 [biltransWithoutQueue]; compare [biltrans] *)
Definition biltransWithoutQueue (P : processor) (input : ustr) (with_delim : bool) : outcome ustr :=
  let n := Z.of_nat (length input) in
  let start := if with_delim then 1 else 0 in
  let endp := u32 (if with_delim then n - 2 else n - 1) in
  if n <=? start then UB
  else if nth (Z.to_nat start) input 0 =? 42 then Ok input
  else
    let mark := nth (Z.to_nat start) input 0 =? 61 in
    let start := if mark then start + 1 else start in
    if n <? start then Throw
    else
      let count := Z.min (u32 (endp - start)) (n - start) in
      let word := firstn (Z.to_nat count) (skipn (Z.to_nat start) input) in
      let mem := skipn (Z.to_nat count) (skipn (Z.to_nat start) input) in
      let! r := step_biltrans P mem word in
      match r with
      | Some (result, []) => Ok (compose_forms result [] with_delim mark)
      | _ => Ok (if with_delim then [94; 64] ++ skipn 1 input else [64] ++ input)
      end.
