(** lt-proc -s: annotated texts (lttoolbox/fst_processor.cc:2160-2366, state.cc:627-677).
    Definitions only.

    As in ProcessorModel.v states are values, output is the list of UTF-16 units written, and
    the ICU functions are parameters.  Reading never ends at the end of a block of CDATA that
    is not closed; that is [NoFuel]. *)
From Verif Require Import Base CompressionModel AlphabetModel StateModel StateSpec FinalsModel
  BufferModel StringModel InputModel StreamModel ProcessorModel.

(** 2237-2240: escaped_chars in this mode *)
Definition sao_escaped (c : Z) : bool := (c =? 92) || (c =? 60) || (c =? 62).
Definition cdata_open : ustr := [60; 33; 91; 67; 68; 65; 84; 65; 91].  (* <![CDATA[ *)
Definition cdata_close : ustr := [93; 93; 62].                         (* ]]> *)

(** 2181-2184; a block starts with '<', so that substr(1) is defined *)
Fixpoint cdata_loop (fuel : nat) (str : ustr) (f : inf) : outcome (ustr * inf) :=
  if endswith str cdata_close then Ok (str, f)
  else
    match fuel with
    | O => NoFuel
    | S fuel => let! (b, f) := readBlock 60 62 f in cdata_loop fuel (str ++ skipn 1 b) f
    end.
(** 2160-2212 [readSAO].  At the end of the file nothing is added to the buffer. *)
Definition readSAO (s : source) : outcome (Z * source) :=
  if negb (isEmpty (s_buf s)) then
    let! (v, b) := next (s_buf s) in Ok (v, mkS (s_file s) b (s_blanks s))
  else
    let! (val, f) := get (s_file s) in
    if eof f then Ok (0, mkS f (s_buf s) (s_blanks s))
    else if sao_escaped val then
      if val =? 60 then
        let! (str, f) := readBlock 60 62 f in
        if startswith str cdata_open then
          let! (str, f) := cdata_loop (2 + i_size f) str f in
          let! b := add 32 (s_buf s) in Ok (32, mkS f b (s_blanks s ++ [str]))
        else Throw
      else if val =? 92 then
        let! (val, f) := get f in
        if sao_escaped val then let! b := add val (s_buf s) in Ok (val, mkS f b (s_blanks s))
        else Throw
      else Throw
    else let! b := add val (s_buf s) in Ok (val, mkS f b (s_blanks s)).

Section Sao.
  Context (P : processor).

  (** state.cc:642-660: the text of one analysis; annot.substr(1, annot.length()-2) of an empty
      string throws *)
  Definition annotation (name : ustr) : outcome ustr :=
    match name with
    | [] => Throw
    | _ :: r => Ok ([38] ++ (if (length name <? 2)%nat then r else firstn (length name - 2) r) ++ [59])
    end.
  Fixpoint sao_spell (upper : bool) (seq : list (Z * Z)) : outcome ustr :=
    match seq with
    | [] => Ok []
    | (c, _) :: r =>
        let! x := if isTag c then let! n := getSymbol c (p_alpha P) in annotation n
                  else getSymbolCase (p_toupper P) c upper (p_alpha P) in
        let! t := sao_spell upper r in
        Ok ((if sao_escaped c then [92] else []) ++ x ++ t)
    end.
  (** state.cc:627-677 [filterFinalsSAO]; 661-672 is [first_up] for the part just appended *)
  Fixpoint filterFinalsSAO (upper firstupper : bool) (st : analyses) : outcome ustr :=
    match st with
    | [] => Ok []
    | s :: r =>
        match final_weight (v_where s) (all_finals P) with
        | None => filterFinalsSAO upper firstupper r
        | Some _ =>
            let! t := sao_spell upper (v_seq s) in
            let! t := if firstupper then first_up (p_toupper P) 0 t else Ok t in
            let! more := filterFinalsSAO upper firstupper r in
            Ok (47 :: t ++ more)
        end
    end.

  (** fst_processor.cc:2214-2225 [printSAOWord]; of an empty string the loop runs past its end *)
  Fixpoint to_slash (l : ustr) : ustr :=
    match l with
    | [] => []
    | c :: r => if c =? 47 then [] else c :: to_slash r
    end.
  Definition printSAOWord (lf : ustr) : outcome ustr :=
    match lf with [] => UB | _ :: r => Ok (to_slash r) end.

  (** 2230-2235 *)
  Record annotator := mkO {
    o_src : source; o_state : analyses; o_lf : ustr; o_sf : ustr; o_last : Z;
    o_incond : bool; o_postblank : bool
  }.
  (** 2244-2289: what is noted before the step; sf[0] of an empty string is 0 *)
  Definition sao_note (val : Z) (o : annotator) : outcome annotator :=
    let pos := getPos (s_buf (o_src o)) in
    let take (incond postblank : bool) :=
      let firstupper := p_isupper P (nth 0 (o_sf o) 0) in
      let! uppercase :=
        if firstupper then match o_sf o with [] => UB | sf => Ok (p_isupper P (last sf 0)) end else Ok false in
      let! lf := filterFinalsSAO uppercase firstupper (o_state o) in
      Ok (mkO (o_src o) (o_state o) lf (o_sf o) pos incond postblank) in
    if isFinal (all_finals P) (o_state o) then
      if isFinal (p_incond P) (o_state o) then take true (o_postblank o)
      else if isFinal (p_postblank P) (o_state o) then take (o_incond o) true
      else if negb (isAlphabetic P val) then take false false
      else Ok o
    else if match o_sf o with [] => p_isspace P val | _ => false end then
      Ok (mkO (o_src o) (o_state o) [47; 42] (o_sf o) pos false false)
    else Ok o.

  (** 2331-2335: do { getSymbol(sf, val) } while((val = readSAO(input)) && isAlphabetic(val)) *)
  Fixpoint sao_run (fuel : nat) (val : Z) (sf : ustr) (s : source) : outcome (ustr * source) :=
    match fuel with
    | O => NoFuel
    | S fuel =>
        let! x := getSymbol val (p_alpha P) in
        let! (val, s) := readSAO s in
        if negb (val =? 0) && isAlphabetic P val then sao_run fuel val (sf ++ x) s
        else Ok (sf ++ x, s)
    end.
  (** 2337-2340, 2344-2347: an unknown word *)
  Definition sao_unknown (sf : ustr) (s : source) : ustr * source :=
    ([60; 100; 62] ++ sf ++ [60; 47; 100; 62],
     go_back (1 + (Z.of_nat (length sf) - Z.of_nat (snd (firstNotAlpha P sf)))) s).
  (** 2297-2354: the state died; the space is [printSpace], 581-592 at [val] *)
  Definition sao_emit (rounds : nat) (val : Z) (o : annotator) : outcome (ustr * source) :=
    let s := o_src o in
    let sf := o_sf o in
    let known (blank : ustr) :=
      let! t := printSAOWord (o_lf o) in
      Ok (t ++ blank, go_back 1 (set_pos (o_last o) s)) in
    let no_lf := match o_lf o with [] => true | _ => false end in
    if negb (isAlphabetic P val) && match sf with [] => true | _ => false end then
      if p_isspace P val then
        match s_blanks s with
        | [] => Ok (append_cp [] val, s)
        | bs => Ok (concat bs, mkS (s_file s) (s_buf s) [])
        end
      else Ok ((if sao_escaped val then [92] else []) ++ append_cp [] val, s)
    else if o_incond o then known []
    else if o_postblank o then known [32]
    else if isAlphabetic P val
            && ((Z.of_nat (lastBlank P sf) <? (Z.of_nat (length sf) - diffPrevPos (o_last o) (s_buf s)) mod 2 ^ 64) || no_lf) then
      let! (sf, s) := sao_run rounds val sf s in
      Ok (sao_unknown sf s)
    else if no_lf then Ok (sao_unknown sf s)
    else known [].

  (** 2242-2365 *)
  Fixpoint sao_loop (rounds fuel : nat) (init : analyses) (o : annotator) : outcome ustr :=
    match fuel with
    | O => NoFuel
    | S fuel =>
        let! (val, s) := readSAO (o_src o) in
        if val =? 0 then Ok (concat (s_blanks s))
        else
          let! o := sao_note val (mkO s (o_state o) (o_lf o) (o_sf o) (o_last o) (o_incond o) (o_postblank o)) in
          let! st := step_case P val (o_state o) in
          match st with
          | _ :: _ =>
              let! x := getSymbol val (p_alpha P) in
              sao_loop rounds fuel init
                (mkO (o_src o) st (o_lf o) (o_sf o ++ x) (o_last o) (o_incond o) (o_postblank o))
          | [] =>
              let! (out, s) := sao_emit rounds val o in
              let! more := sao_loop rounds fuel init (mkO s init [] [] (o_last o) false false) in
              Ok (out ++ more)
          end
    end.
  (** 2227-2366 [SAO], lt_proc.cc:203-207 *)
  Definition lt_sao (rounds : nat) (bytes : list Z) : outcome ustr :=
    let! init := initial_state P in
    sao_loop rounds rounds init (mkO (new_source (open_file bytes)) init [] [] 0 false false).
End Sao.
