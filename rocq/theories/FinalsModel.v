(** Reporting the final analyses (lttoolbox/state.cc:471-576).

    Weights are exact integers counting millionths (the double arithmetic is not modelled),
    so that "%f" prints them exactly.  A UString is a list of UTF-16 units. *)
From Verif Require Import Base CompressionModel AlphabetModel StateModel StateSpec.

Section FinalsModel.
  Context (u_toupper : Z -> Z).
  (** std::sort with the weight order: some function, see [is_sort]. *)
  Context (sort : list (ustr * Z) -> list (ustr * Z)).

  (** finals.find(where) *)
  Fixpoint final_weight (q : nat) (fins : list (nat * Z)) : option Z :=
    match fins with
    | [] => None
    | (p, w) :: r => if (p =? q)%nat then Some w else final_weight q r
    end.

  (** state.cc:471-483 [isFinal]. *)
  Definition isFinal (fins : list (nat * Z)) (st : list (vns (W:=Z))) : bool :=
    existsb (fun s => match final_weight (v_where s) fins with Some _ => true | None => false end) st.

  (** alphabet.cc:228-240 [getSymbol] with the uppercase flag. *)
  Definition getSymbolCase (symbol : Z) (uppercase : bool) (a : alphabet) : outcome ustr :=
    if (0 <? symbol) && uppercase then Ok (append_cp [] (u_toupper symbol)) else getSymbol symbol a.

  (** state.cc:528-532: text and cost of a sequence. *)
  Fixpoint spell (a : alphabet) (escaped : Z -> bool) (upper : bool) (seq : list (Z * Z))
    : outcome (ustr * Z) :=
    match seq with
    | [] => Ok ([], 0)
    | (c, w) :: r =>
        let! x := getSymbolCase c upper a in
        let! (t, cost) := spell a escaped upper r in
        Ok ((if escaped c then [92] else []) ++ x ++ t, w + cost)
    end.

  (** state.cc:533-537; reading at the end of a string gives 0, further on is undefined;
      so is writing anything but 0 at the end. 126 is '~'. *)
  Definition first_up (firstchar : nat) (t : ustr) : outcome ustr :=
    if (length t <? firstchar)%nat then UB
    else
      let loc := if nth firstchar t 0 =? 126 then S firstchar else firstchar in
      let c := u_toupper (nth loc t 0) mod 2 ^ 16 in
      if (loc <? length t)%nat then Ok (put_nth loc c t)
      else if c =? 0 then Ok t else UB.

  (** state.cc:523-539: the response vector. *)
  Fixpoint responses (fins : list (nat * Z)) (a : alphabet) (escaped : Z -> bool)
      (uppercase firstupper : bool) (firstchar : nat) (st : list (vns (W:=Z)))
    : outcome (list (ustr * Z)) :=
    match st with
    | [] => Ok []
    | s :: r =>
        match final_weight (v_where s) fins with
        | None => responses fins a escaped uppercase firstupper firstchar r
        | Some fw =>
            let! (t, cost) := spell a escaped (v_dirty s && uppercase) (v_seq s) in
            let! t := if v_dirty s && firstupper then first_up firstchar t else Ok t in
            let! l := responses fins a escaped uppercase firstupper firstchar r in
            Ok ((t, fw + cost) :: l)
        end
    end.

  (** state.cc:493-506: the loop of [NFinals] after sorting; [last_weight] is 0 anew in
      every round. *)
  Fixpoint take_finals (maxAnalyses maxWeightClasses : Z) (l : list (ustr * Z)) : list (ustr * Z) :=
    match l with
    | [] => []
    | x :: r =>
        if (0 <? maxAnalyses) && (0 <? maxWeightClasses)
        then x :: take_finals (maxAnalyses - 1)
                    (if 0 =? snd x then maxWeightClasses else maxWeightClasses - 1) r
        else []
    end.
  Definition NFinals (l : list (ustr * Z)) (maxAnalyses maxWeightClasses : Z) : list (ustr * Z) :=
    take_finals maxAnalyses maxWeightClasses (sort l).

  (** state.cc:544-546: skipping texts already seen (sorted_vector, C46). *)
  Fixpoint unseen (seen : list ustr) (l : list (ustr * Z)) : list (ustr * Z) :=
    match l with
    | [] => []
    | x :: r => if in_dec ustr_eq_dec (fst x) seen then unseen seen r
                else x :: unseen (fst x :: seen) r
    end.

  (** "%f" of a number of millionths. *)
  Fixpoint digits (fuel : nat) (n : Z) : list Z :=
    match fuel with
    | O => []
    | S fuel => if n <? 10 then [48 + n] else digits fuel (n / 10) ++ [48 + n mod 10]
    end.
  Definition decimal (n : Z) : list Z := digits (S (Z.to_nat (Z.log2 n))) n.
  Definition micro (n : Z) : list Z := (* six digits *)
    map (fun k => 48 + (n / 10 ^ k) mod 10) [5; 4; 3; 2; 1; 0].
  Definition weight_text (w : Z) : ustr :=
    [60; 87; 58] ++ (if w <? 0 then [45] else []) ++ decimal (Z.abs w / 1000000)
      ++ [46] ++ micro (Z.abs w mod 1000000) ++ [62].
  (** state.cc:548-553: the text and its 0 go into a buffer of 16 units. *)
  Fixpoint display (weights : bool) (l : list (ustr * Z)) : outcome (list ustr) :=
    match l with
    | [] => Ok []
    | (t, w) :: r =>
        let! t := if weights then
                    if (16 <? S (length (weight_text w)))%nat then UB else Ok (t ++ weight_text w)
                  else Ok t in
        let! l := display weights r in
        Ok (t :: l)
    end.

  (** state.cc:510-555 [filterFinalsArray]. *)
  Definition filterFinalsArray (fins : list (nat * Z)) (a : alphabet) (escaped : Z -> bool)
      (display_weights : bool) (max_analyses max_weight_classes : Z)
      (uppercase firstupper : bool) (firstchar : nat) (st : list (vns (W:=Z)))
    : outcome (list ustr) :=
    let! resp := responses fins a escaped uppercase firstupper firstchar st in
    display display_weights (unseen [] (NFinals resp max_analyses max_weight_classes)).

  (** state.cc:557-576 [filterFinals]. *)
  Definition filterFinals (fins : list (nat * Z)) (a : alphabet) (escaped : Z -> bool)
      (display_weights : bool) (max_analyses max_weight_classes : Z)
      (uppercase firstupper : bool) (firstchar : nat) (st : list (vns (W:=Z)))
    : outcome ustr :=
    let! l := filterFinalsArray fins a escaped display_weights max_analyses max_weight_classes
                uppercase firstupper firstchar st in
    Ok (concat (map (fun t => 47 :: t) l)).
End FinalsModel.
