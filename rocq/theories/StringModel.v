(** String helpers: StringUtils (lttoolbox/string_utils.cc:9-117, 283-306) and symbol_iter
    (symbol_iter.cc).  Definitions only.  A string is its list of UTF-16 units. *)
From Verif Require Import Base.

(** * std::basic_string_view::find and substr *)
Fixpoint is_prefix (d s : list Z) : bool :=
  match d, s with
  | [], _ => true
  | _, [] => false
  | x :: d, y :: s => (x =? y) && is_prefix d s
  end.
(** The first position in [s] where [d] occurs. *)
Fixpoint find_in (d s : list Z) : option nat :=
  if is_prefix d s then Some 0%nat
  else match s with
       | [] => None
       | _ :: r => match find_in d r with Some p => Some (S p) | None => None end
       end.
(** find(d, pos) *)
Definition find_from (s d : list Z) (pos : nat) : option nat :=
  if (length s <? pos)%nat then None
  else match find_in d (skipn pos s) with Some p => Some (pos + p)%nat | None => None end.
Definition sub (s : list Z) (pos n : nat) : list Z := firstn n (skipn pos s).

(** * split, string_utils.cc:49-68 *)
Fixpoint split_loop (fuel : nat) (str delim : list Z) (pos : nat) : outcome (list (list Z)) :=
  if negb (pos <? length str)%nat then Ok []
  else
    match fuel with
    | O => NoFuel
    | S fuel =>
        let new_pos := match find_from str delim pos with Some p => p | None => length str end in
        let! r := split_loop fuel str delim (new_pos + length delim) in
        Ok (if (pos <? new_pos)%nat then sub str pos (new_pos - pos) :: r else r)
    end.
Definition split (fuel : nat) (str delim : list Z) : outcome (list (list Z)) :=
  split_loop fuel str delim 0.

(** * split_escaped, string_utils.cc:70-91; [rest] are the units from i on *)
Fixpoint split_escaped_loop (str : list Z) (delim : Z) (start i : nat) (rest : list Z)
  : list (list Z) :=
  match rest with
  | [] => if (start <? length str)%nat then [skipn start str] else []
  | c :: r =>
      if c =? 92 then
        match r with
        | [] => if (start <? length str)%nat then [skipn start str] else []
        | _ :: r' => split_escaped_loop str delim start (S (S i)) r'
        end
      else if c =? delim then
        let l := split_escaped_loop str delim (S i) (S i) r in
        if (start <? i)%nat then sub str start (i - start) :: l else l
      else split_escaped_loop str delim start (S i) r
  end.
Definition split_escaped (str : list Z) (delim : Z) : list (list Z) :=
  split_escaped_loop str delim 0 0 str.

(** * join, string_utils.cc:93-104 *)
Definition join (vec : list (list Z)) (delim : list Z) : list Z :=
  fold_left (fun s piece => (match s with [] => s | _ => s ++ delim end) ++ piece) vec [].

(** * substitute, string_utils.cc:106-117 *)
Fixpoint substitute_loop (fuel : nat) (s olds news : list Z) (p : option nat) : outcome (list Z) :=
  match p with
  | None => Ok s
  | Some p =>
      match fuel with
      | O => NoFuel
      | S fuel =>
          let s := firstn p s ++ news ++ skipn (p + length olds) s in
          substitute_loop fuel s olds news (find_from s olds (p + length news))
      end
  end.
Definition substitute (fuel : nat) (str olds news : list Z) : outcome (list Z) :=
  substitute_loop fuel str olds news (find_from str olds 0).

(** * startswith, endswith, string_utils.cc:283-295 *)
Definition startswith (str prefix : list Z) : bool :=
  (length prefix <=? length str)%nat
  && (if list_eq_dec Z.eq_dec (sub str 0 (length prefix)) prefix then true else false).
Definition endswith (str suffix : list Z) : bool :=
  (length suffix <=? length str)%nat
  && (if list_eq_dec Z.eq_dec (skipn (length str - length suffix) str) suffix then true else false).

(** * UTF-16 access (ICU utf16.h)
    A string_view is the first [len] units of the memory [mem] from its data pointer on;
    reading beyond [mem] is [UB], reading beyond [len] within [mem] reads what lies there. *)
Definition is_lead (c : Z) : bool := (55296 <=? c) && (c <=? 56319).
Definition is_trail (c : Z) : bool := (56320 <=? c) && (c <=? 57343).
Definition supplementary (l t : Z) : Z := 65536 + (l - 55296) * 1024 + (t - 56320).
Definition unit_at (mem : list Z) (i : nat) : outcome Z :=
  match nth_error mem i with Some c => Ok c | None => UB end.

(** U16_NEXT(s, i, length, c): the code point and the new i *)
Definition u16_next (mem : list Z) (i len : nat) : outcome (Z * nat) :=
  let! c := unit_at mem i in
  if is_lead c && negb (S i =? len)%nat then
    let! c2 := unit_at mem (S i) in
    if is_trail c2 then Ok (supplementary c c2, S (S i)) else Ok (c, S i)
  else Ok (c, S i).
(** U16_FWD_1(s, i, length) *)
Definition u16_fwd (mem : list Z) (i len : nat) : outcome nat :=
  let! (_, i) := u16_next mem i len in Ok i.
(** U16_GET(s, start, i, length, c) *)
Definition u16_get (mem : list Z) (start i len : nat) : outcome Z :=
  let! c := unit_at mem i in
  if is_lead c then
    if negb (S i =? len)%nat then
      let! c2 := unit_at mem (S i) in
      Ok (if is_trail c2 then supplementary c c2 else c)
    else Ok c
  else if is_trail c then
    if (start <? i)%nat then
      let! c2 := unit_at mem (i - 1) in
      Ok (if is_lead c2 then supplementary c2 c else c)
    else Ok c
  else Ok c.
(** U16_BACK_1(s, start, i); i = 0 would decrement below 0 *)
Definition u16_back (mem : list Z) (start i : nat) : outcome nat :=
  match i with
  | O => UB
  | S i =>
      let! c := unit_at mem i in
      if is_trail c && (start <? i)%nat then
        let! c2 := unit_at mem (i - 1) in
        Ok (if is_lead c2 then i - 1 else i)%nat
      else Ok i
  end.

(** * trim, string_utils.cc:9-47: the bounds of the part kept *)
Section Trim.
  Context (u_isspace : Z -> bool).

  (** lines 19-27: [begin] is 0 until a code point that is no space is found *)
  Fixpoint trim_front (fuel : nat) (mem : list Z) (len i : nat) : outcome nat :=
    match fuel with
    | O => NoFuel
    | S fuel =>
        let! c := u16_get mem 0 i len in
        if negb (u_isspace c) then Ok i
        else let! i := u16_fwd mem i len in trim_front fuel mem len i
    end.
  (** lines 38-45 *)
  Fixpoint trim_back (fuel : nat) (mem : list Z) (len begin_ end_ i : nat) : outcome nat :=
    if negb (begin_ <? end_)%nat then Ok end_
    else
      match fuel with
      | O => NoFuel
      | S fuel =>
          let end_ := i in
          let! i := u16_back mem 0 i in
          let! c := u16_get mem 0 i len in
          if negb (u_isspace c) then Ok end_ else trim_back fuel mem len begin_ end_ i
      end.
  Definition trim (fuel : nat) (mem : list Z) (len : nat) : outcome (list Z) :=
    if (len =? 0)%nat then Ok []
    else
      let! begin_ := trim_front fuel mem len 0 in
      let! i := u16_back mem 0 len in
      let! c := u16_get mem 0 i len in
      if negb (u_isspace c) then
        if (len <? begin_)%nat then Throw else Ok (sub (firstn len mem) begin_ (len - begin_))
      else
        let! end_ := trim_back fuel mem len begin_ len i in
        if (len <? begin_)%nat then Throw
        else Ok (if (begin_ <=? end_)%nat then sub (firstn len mem) begin_ (end_ - begin_)
                 else skipn begin_ (firstn len mem)).
End Trim.

(** * symbol_iter *)
Record siter := mkSI { s_loc : nat; e_loc : nat }.

(** symbol_iter.cc:26: the loop looking for '>' *)
Fixpoint tag_loop (fuel : nat) (mem : list Z) (len : nat) (c : Z) (i : nat) : outcome (Z * nat) :=
  if negb (c =? 62) && (i <? len)%nat then
    match fuel with
    | O => NoFuel
    | S fuel => let! (c, i) := u16_next mem i len in tag_loop fuel mem len c i
    end
  else Ok (c, i).

(** symbol_iter.cc:18-35 [operator++] *)
Definition si_next (mem : list Z) (len : nat) (it : siter) : outcome siter :=
  if (s_loc it <? len)%nat then
    let sloc := e_loc it in
    let! (c, eloc) := u16_next mem (e_loc it) len in
    let! (sloc, eloc) :=
      if c =? 92 then
        let! (_, eloc) := u16_next mem eloc len in Ok (S sloc, eloc)
      else if c =? 60 then
        let! (c, i) := tag_loop len mem len c eloc in
        Ok (sloc, if c =? 62 then i else eloc)
      else Ok (sloc, eloc) in
    Ok (mkSI sloc (if (len <? eloc)%nat then len else eloc))
  else Ok it.
(** symbol_iter.cc:4-7, 47-57: begin() and end(); operator* is substr(sloc, eloc-sloc) *)
Definition si_begin (mem : list Z) (len : nat) : outcome siter := si_next mem len (mkSI 0 0).
Definition si_deref (mem : list Z) (len : nat) (it : siter) : outcome (list Z) :=
  if (len <? s_loc it)%nat then Throw
  else Ok (if (s_loc it <=? e_loc it)%nat then sub (firstn len mem) (s_loc it) (e_loc it - s_loc it)
           else skipn (s_loc it) (firstn len mem)).
Definition si_at_end (len : nat) (it : siter) : bool := (s_loc it =? len)%nat && (e_loc it =? len)%nat.

(** "for (auto x : symbol_iter(str))": the symbols seen *)
Fixpoint si_loop (fuel : nat) (mem : list Z) (len : nat) (it : siter) : outcome (list (list Z)) :=
  if si_at_end len it then Ok []
  else
    match fuel with
    | O => NoFuel
    | S fuel =>
        let! x := si_deref mem len it in
        let! it := si_next mem len it in
        let! r := si_loop fuel mem len it in
        Ok (x :: r)
    end.
Definition symbols (fuel : nat) (mem : list Z) (len : nat) : outcome (list (list Z)) :=
  let! it := si_begin mem len in si_loop fuel mem len it.
