(** FSTProcessor::biltransWithQueue (lttoolbox/fst_processor.cc:1864-1958).  Definitions only;
    compare [biltrans] in ProcessorModel.v, whose reading of views is used here. *)
From Verif Require Import Base AlphabetModel StateModel FinalsModel BufferModel InputModel StreamModel ProcessorModel.

Section QueueModel.
  Context (P : processor).

  (** 1901-1942: the loop over the symbols; [None] is the return for a word that is not present.
      filterFinalsArray writes over [result]. *)
  Fixpoint queue_loop (upper firstupper : bool) (st : analyses) (result : list ustr) (queue : ustr) (seentags : bool)
      (l : list ustr) : outcome (option (analyses * (list ustr * (ustr * bool)))) :=
    match l with
    | [] => Ok (Some (st, (result, (queue, seentags))))
    | s :: r =>
        let seentags := match s with [_] => seentags | _ => true end in
        let! st := match st with [] => Ok [] | _ => step_case P (piece_symbol P s) st end in
        let! result := if isFinal (all_finals P) st then finals_array P upper firstupper st else Ok result in
        match st with
        | [] =>
            match s, result with
            | _ :: _, _ :: _ => queue_loop upper firstupper st result (queue ++ s) seentags r
            | _, _ => Ok None
            end
        | _ => queue_loop upper firstupper st result queue seentags r
        end
    end.
  (** The two units after the mark, 1897-1898; reading behind the end of the view is undefined *)
  Definition queue_case (input : ustr) (start : nat) : outcome (bool * bool) :=
    match skipn start input with
    | [] => UB
    | c :: r =>
        if p_isupper P c then match r with [] => UB | d :: _ => Ok (p_isupper P d, true) end
        else Ok (false, false)
    end.
  (** 1863-1958 *)
  Definition biltransWithQueue (input : ustr) (with_delim : bool) : outcome (ustr * Z) :=
    let n := Z.of_nat (length input) in
    let start := if with_delim then 1 else 0 in
    let endp := u32 (if with_delim then n - 2 else n - 1) in
    let absent := (if with_delim then [94; 64] ++ skipn 1 input else [64] ++ input, 0) in
    if n <=? start then UB
    else if nth (Z.to_nat start) input 0 =? 42 then Ok (input, 0)
    else
      let mark := nth (Z.to_nat start) input 0 =? 61 in
      let start := if mark then start + 1 else start in
      let! (uppercase, firstupper) := queue_case input (Z.to_nat start) in
      let count := Z.min (u32 (endp - start)) (n - start) in
      let word := firstn (Z.to_nat count) (skipn (Z.to_nat start) input) in
      let mem := skipn (Z.to_nat count) (skipn (Z.to_nat start) input) in
      let! l := pieces mem word in
      let! init := initial_state P in
      let! r := queue_loop uppercase firstupper init [] [] false l in
      match r with
      | None => Ok absent
      | Some (st, (result, (queue, seentags))) =>
          let! whole := if seentags then Ok [0]
                        else filterFinals (p_toupper P) (p_sort P) (all_finals P) (p_alpha P) is_escaped (p_weights P)
                               (p_maxAnalyses P) (p_maxClasses P) uppercase firstupper 0 st in
          match whole with
          | [] => Ok absent
          | _ => Ok (compose_forms result queue with_delim mark, Z.of_nat (length queue))
          end
      end.
End QueueModel.
