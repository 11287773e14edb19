(** Model of lttoolbox/regexp_compiler.cc.  Definitions only.

    The members [input], [index] and [token] are the list of what is left: [token] is its
    head, FIN_FICHERO at the end.  The members [letter], [postop] and [brackets] are set
    and used up within one call each ([postop] and [brackets] are reset at lines 208, 235,
    374-375), so the functions that set them return them.  [alphabet(0, 0)] is 0 and
    changes nothing (C08_epsilon_pair); it is written 0.  Recursion takes fuel. *)
From Verif Require Import Base TransducerModel AlphabetModel.

(** regexp_compiler.cc:23 *)
Definition FIN_FICHERO : Z := 2147483647.

(** regexp_compiler.cc:63-85 [isReserved]: ( ) [ ] * ? + - ^ \ | and the end. *)
Definition isReserved (t : Z) : bool :=
  existsb (Z.eqb t) [40; 41; 91; 93; 42; 63; 43; 45; 94; 92; 124; FIN_FICHERO].

Definition token (l : list Z) : Z := hd FIN_FICHERO l.

(** regexp_compiler.cc:101-120 [consume]; beyond the end [input[index]] is read outside. *)
Definition consume (t : Z) (l : list Z) : outcome (list Z) :=
  if token l =? t then match l with [] => UB | _ :: r => Ok r end else Exit.

(** The test at lines 136, 149, 253. *)
Definition starts (t : Z) : bool := (t =? 40) || (t =? 91) || negb (isReserved t) || (t =? 92).

(** regexp_compiler.cc:397-408 [Reservado] *)
Definition reservado (l : list Z) : outcome (list Z) :=
  if isReserved (token l) then consume (token l) l else Exit.

(** regexp_compiler.cc:267-285 [Letra] *)
Definition letra (l : list Z) : outcome (Z * list Z) :=
  if negb (isReserved (token l)) then let! r := consume (token l) l in Ok (token l, r)
  else if token l =? 92 then
    let! r := consume 92 l in
    let! r' := reservado r in
    Ok (token r, r')
  else Exit.

(** regexp_compiler.cc:287-314 [Postop]; 0 is none. *)
Definition postop (l : list Z) : outcome (Z * list Z) :=
  let t := token l in
  if t =? 42 then let! r := consume 42 l in Ok (42, r)
  else if t =? 63 then let! r := consume 63 l in Ok (63, r)
  else if t =? 43 then let! r := consume 43 l in Ok (43, r)
  else if starts t || (t =? 124) || (t =? FIN_FICHERO) || (t =? 41) then Ok (0, l)
  else Exit.

(** std::set<int>::insert *)
Fixpoint zset_insert (x : Z) (l : list Z) : list Z :=
  match l with
  | [] => [x]
  | y :: r => if x <? y then x :: l else if x =? y then l else y :: zset_insert x r
  end.
Definition zrange (lo hi : Z) : list Z :=
  map (fun i => lo + Z.of_nat i) (seq 0 (Z.to_nat (hi - lo + 1))).

(** regexp_compiler.cc:438-453 [ColaLetra]; [letter] is the letter read before. *)
Definition colaLetra (letter : Z) (l : list Z) : outcome (Z * list Z) :=
  let t := token l in
  if t =? 45 then let! r := consume 45 l in letra r
  else if negb (isReserved t) || (t =? 92) || (t =? 93) then Ok (letter, l)
  else Exit.

(** regexp_compiler.cc:410-436 [Elem] *)
Definition elem (l : list Z) (brackets : list Z) : outcome (list Z * list Z) :=
  if negb (isReserved (token l)) || (token l =? 92) then
    let! (rango1, l) := letra l in
    let! (rango2, l) := colaLetra rango1 l in
    if rango2 <? rango1 then Exit
    else Ok (l, fold_left (fun b i => zset_insert i b) (zrange rango1 rango2) brackets)
  else Exit.

(** regexp_compiler.cc:380-395 [Lista] *)
Fixpoint lista (fuel : nat) (l brackets : list Z) : outcome (list Z * list Z) :=
  match fuel with
  | O => NoFuel
  | S n =>
      if negb (isReserved (token l)) || (token l =? 92) then
        let! (l, brackets) := elem l brackets in lista n l brackets
      else if token l =? 93 then Ok (l, brackets)
      else Exit
  end.

(** Lines 195-206, 222-233, 362-373. *)
Definition apply_postop (op : Z) (t : transducer) : outcome transducer :=
  if op =? 42 then zeroOrMore 0 t
  else if op =? 43 then oneOrMore 0 t
  else if op =? 63 then optional 0 t
  else Ok t.

(** Lines 329-332 and 348-351. *)
Definition add_char (at_ : alphabet * transducer) (c : Z) : alphabet * transducer :=
  let '(a, t) := at_ in
  let '(mystate, t) := insertNewSingleTransduction 0 (initial t) 0 t in
  let '(tag, a) := pair_code (c, c) a in
  let '(mystate, t) := insertNewSingleTransduction tag mystate 0 t in
  (a, setFinal mystate 0 true t).

Record rx := mkRx { rx_in : list Z; rx_a : alphabet; rx_t : transducer; rx_st : nat }.

(** The end of a term: the transducer [t] of the term is inserted (lines 209, 236-237, 377). *)
Definition insert_term (l : list Z) (a : alphabet) (t self : transducer) (state : nat) : outcome rx :=
  let! (state, self, _) := insertTransducer state t 0 self in
  Ok (mkRx l a self state).

(** regexp_compiler.cc:320-324, 337-342 and the test at 346: what is left, the operator and
    the symbols of the class, after the opening bracket. *)
Definition esp_class (l : list Z) : outcome (list Z * Z * list Z) :=
  if negb (isReserved (token l)) || (token l =? 92) || (token l =? 93) then
    let! (l, brackets) := lista (S (length l)) l [] in
    let! l := consume 93 l in
    let! (op, l) := postop l in
    Ok (l, op, brackets)
  else if token l =? 94 then
    let! l := consume 94 l in
    let! (l, brackets) := lista (S (length l)) l [] in
    let! l := consume 93 l in
    let! (op, l) := postop l in
    Ok (l, op, filter (fun i => negb (existsb (Z.eqb i) brackets)) (zrange 0 255))
  else Exit.

(** regexp_compiler.cc:316-378 [Esp] *)
Definition esp (s : rx) : outcome rx :=
  let! (l, op, cs) := esp_class (rx_in s) in
  let '(a, t) := fold_left add_char cs (rx_a s, new_transducer) in
  let! t := joinFinals 0 t in
  let! t := apply_postop op t in
  insert_term l a t (rx_t s) (rx_st s).

(** regexp_compiler.cc:133-182 [S], [RExpr], [Cola], 184-248 [Term], 250-265 [RExprp]. *)
Fixpoint rS (fuel : nat) (s : rx) : outcome rx :=
  match fuel with
  | O => NoFuel
  | S n => if starts (token (rx_in s)) then let! s := rRExpr n s in rCola n s else Exit
  end
with rRExpr (fuel : nat) (s : rx) : outcome rx :=
  match fuel with
  | O => NoFuel
  | S n => if starts (token (rx_in s)) then let! s := rTerm n s in rRExprp n s else Exit
  end
with rCola (fuel : nat) (s : rx) : outcome rx :=
  match fuel with
  | O => NoFuel
  | S n =>
      let t := token (rx_in s) in
      if (t =? FIN_FICHERO) || (t =? 41) then Ok s
      else if t =? 124 then
        let e := rx_st s in
        let! l := consume 124 (rx_in s) in
        let! s := rRExpr n (mkRx l (rx_a s) (rx_t s) (initial (rx_t s))) in
        let! s := rCola n s in
        let '(state, t) := insertNewSingleTransduction 0 (rx_st s) 0 (rx_t s) in
        let! t := linkStates e state 0 0 t in
        Ok (mkRx (rx_in s) (rx_a s) t state)
      else Exit
  end
with rTerm (fuel : nat) (s : rx) : outcome rx :=
  match fuel with
  | O => NoFuel
  | S n =>
      let tk := token (rx_in s) in
      if negb (isReserved tk) || (tk =? 92) then
        let! (letter, l) := letra (rx_in s) in
        let '(tag, a) := pair_code (letter, letter) (rx_a s) in
        let '(e, t) := insertNewSingleTransduction tag (initial new_transducer) 0 new_transducer in
        let t := setFinal e 0 true t in
        let! (op, l) := postop l in
        let! t := apply_postop op t in
        insert_term l a t (rx_t s) (rx_st s)
      else if tk =? 40 then
        let! l := consume 40 (rx_in s) in
        let! s' := rS n (mkRx l (rx_a s) new_transducer (initial new_transducer)) in
        let! l := consume 41 (rx_in s') in
        let t := setFinal (rx_st s') 0 true (rx_t s') in
        let! (op, l) := postop l in
        let! t := apply_postop op t in
        insert_term l (rx_a s') t (rx_t s) (rx_st s)
      else if tk =? 91 then
        let! l := consume 91 (rx_in s) in
        esp (mkRx l (rx_a s) (rx_t s) (rx_st s))
      else Exit
  end
with rRExprp (fuel : nat) (s : rx) : outcome rx :=
  match fuel with
  | O => NoFuel
  | S n =>
      let t := token (rx_in s) in
      if starts t then let! s := rTerm n s in rRExprp n s
      else if (t =? 124) || (t =? FIN_FICHERO) || (t =? 41) then Ok s
      else Exit
  end.

(** regexp_compiler.cc:467-474 [initialize], 122-131 [compile] and 461-465
    [getTransducer]: the alphabet and the transducer.  [input[0]] of an empty vector is
    outside. *)
Definition rx_compile (a : alphabet) (er : list Z) : outcome (alphabet * transducer) :=
  match er with
  | [] => UB
  | _ =>
      let! s := rS (4 * length er + 4) (mkRx er a new_transducer (initial new_transducer)) in
      Ok (rx_a s, setFinal (rx_st s) 0 true (rx_t s))
  end.
