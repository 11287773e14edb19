(** Which entries Compiler::procEntry compiles (lttoolbox/compiler.cc:697-707 and 728-807).
    Definitions only.  Unified compilation (lines 742-793) is in UnifiedModel.v. *)
From Verif Require Import Base AlphabetModel StringModel ExpanderModel.

(** 697-707 [filterEntry] *)
Definition filterEntry (value filter : ustr) (keep_on_empty_filter : bool) : outcome bool :=
  if uempty value then Ok true
  else if keep_on_empty_filter && uempty filter then Ok true
  else
    let! ops := split (S (length value)) value [32] in
    Ok (existsb (fun it => ueq it filter) ops).
(** 794-806: the condition under which an entry is left out, negated; [lr] is the direction.
    The conditions are evaluated from left to right. *)
Definition compiled (o : options) (lr : bool) (a : attributes) : outcome bool :=
  if negb (uempty (at_r a)) && negb (ueq (at_r a) (if lr then LR_val else RL_val)) then Ok false
  else if ueq (at_ignore a) yes_val then Ok false
  else
    let! alt := filterEntry (at_alt a) (o_alt o) false in
    if negb alt then Ok false
    else
      let! v := filterEntry (at_v a) (o_v o) true in
      if negb v then Ok false
      else if lr then filterEntry (at_vr a) (o_vr o) false
      else filterEntry (at_vl a) (o_vl o) false.
