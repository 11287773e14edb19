(** Rational operations on weighted languages. *)
From Verif Require Import Base.

Definition wset : Type := list Z -> Z -> Prop.

(** One or more members in a row; weights add up. *)
Inductive wplus (L : wset) : wset :=
| wplus_one w c : L w c -> wplus L w c
| wplus_more w c w' c' : L w c -> wplus L w' c' -> wplus L (w ++ w') (c + c').

(** Zero or more. *)
Inductive wstar (L : wset) : wset :=
| wstar_nil : wstar L [] 0
| wstar_more w c w' c' : L w c -> wstar L w' c' -> wstar L (w ++ w') (c + c').

(** Zero or one. *)
Inductive wopt (L : wset) : wset :=
| wopt_nil : wopt L [] 0
| wopt_one w c : L w c -> wopt L w c.

(** One after the other. *)
Inductive wcat (L M : wset) : wset :=
| wcat_both w c w' c' : L w c -> M w' c' -> wcat L M (w ++ w') (c + c').

(** Either. *)
Definition wunion (L M : wset) : wset := fun w c => L w c \/ M w c.
