(** What a translation memory says: the units of a TMX document and the two sides each is
    compiled to; independent of the compiler.

    The symbols of a side are the characters, -1 for a number and, before the parts are put
    together, -2 for an element <hi> or <ph>. *)
From Coq Require String Ascii.
From Verif Require Import Base AlphabetModel DixModel DixSpec.
Import String.StringSyntax.

Definition number_symbol : Z := -1.
Definition mark_symbol : Z := -2.

Section Sides.
Context (blank digit : Z -> Prop).

(** [w] is [v] without the blanks at both ends. *)
Definition trimmed (v w : list Z) : Prop :=
  exists a b, v = a ++ w ++ b /\ Forall blank a /\ Forall blank b
    /\ (forall c r, w = c :: r -> ~ blank c) /\ (forall c r, w = r ++ [c] -> ~ blank c).

(** ** Numbers: digits, with points and commas between them, as long as possible *)
Definition numeric (c : Z) : Prop := digit c \/ c = 46 \/ c = 44.
Definition number (n : list Z) : Prop :=
  Forall numeric n /\ (exists d r, n = d :: r /\ digit d) /\ (exists d r, n = r ++ [d] /\ digit d).
Inductive token := Num (n : list Z) | Char (c : Z).
Inductive cut : list Z -> list token -> Prop :=
| cut_nil : cut [] []
| cut_char c v ts : ~ digit c -> cut v ts -> cut (c :: v) (Char c :: ts)
| cut_num n v ts : number n -> (forall x d y, v = x ++ d :: y -> Forall numeric x -> ~ digit d) -> cut v ts ->
    cut (n ++ v) (Num n :: ts).
Definition text_of (t : token) : list Z := match t with Num n => n | Char c => [c] end.
Definition numbers (ts : list token) : list (list Z) := flat_map (fun t => match t with Num n => [n] | Char _ => [] end) ts.
(** The side that is looked up *)
Definition source (ts : list token) : list Z := map (fun t => match t with Num _ => number_symbol | Char c => c end) ts.
(** The translation refers to the numbers of the source by their place: @(1), @(2), ... *)
Inductive decimal_of : Z -> list Z -> Prop :=
| de_one n : 0 <= n < 10 -> decimal_of n [48 + n]
| de_more n s : 10 <= n -> decimal_of (n / 10) s -> decimal_of n (s ++ [48 + n mod 10]).
Definition first_at (k : nat) (n : list Z) (ns : list (list Z)) : Prop :=
  nth_error ns k = Some n /\ forall j, (j < k)%nat -> nth_error ns j <> Some n.
Inductive target (ns : list (list Z)) : list token -> list Z -> Prop :=
| ta_nil : target ns [] []
| ta_char c ts t : target ns ts t -> target ns (Char c :: ts) (c :: t)
| ta_num n k d ts t : first_at k n ns -> decimal_of (Z.of_nat k + 1) d -> target ns ts t ->
    target ns (Num n :: ts) (txt "@(" ++ d ++ txt ")" ++ t).
(** If the translation has a number that is not in the source, and does not begin with it, both
    sides stay as they are. *)
Inductive numbered : list Z -> list Z -> list Z -> list Z -> Prop :=
| nu_matched s t ss ts t' : cut s ss -> cut t ts -> target (numbers ss) ts t' -> numbered s t (source ss) t'
| nu_none s t ss : cut s ss -> numbers ss = [] -> numbered s t s t
| nu_kept s t ss ts n ts' : cut s ss -> cut t (ts ++ Num n :: ts') -> Forall (fun m => In m (numbers ss)) (numbers ts) ->
    ~ In n (numbers ss) -> (length n <= length (flat_map text_of ts))%nat -> numbered s t s t.

(** ** Parts, divided by the marks; one at the end divides nothing *)
Inductive parts : list Z -> list (list Z) -> Prop :=
| pa_nil : parts [] []
| pa_last p : p <> [] -> ~ In mark_symbol p -> parts p [p]
| pa_more p v ps : ~ In mark_symbol p -> parts v ps -> parts (p ++ mark_symbol :: v) (p :: ps).
Fixpoint between (s : list Z) (ps : list (list Z)) : list Z :=
  match ps with
  | [] => []
  | [p] => p
  | p :: r => p ++ s ++ between s r
  end.

(** The two sides of a unit with the texts [s] and [t] *)
Definition unit_is (s t S T : list Z) : Prop :=
  exists s0 t0 s1 t1 ps qs ps' qs', trimmed s s0 /\ trimmed t t0 /\ numbered s0 t0 s1 t1
    /\ parts s1 ps /\ parts t1 qs /\ Forall2 trimmed ps ps' /\ Forall2 trimmed qs qs'
    /\ S = between (txt " ") ps' /\ T = between (txt "(#)") qs'.
End Sides.

(** ** Documents *)
Definition is (x : ustr) (n : xnode) : Prop := x_name n = x.
(** The text of a variant *)
Inductive content : list xnode -> list Z -> Prop :=
| co_nil : content [] []
| co_text n ns v : is (txt "#text") n -> content ns v -> content (n :: ns) (x_value n ++ v)
| co_mark n ns v : is (txt "hi") n \/ is (txt "ph") n -> x_end n = false -> content ns v -> content (n :: ns) (mark_symbol :: v)
| co_other n ns v : ~ is (txt "#text") n -> ((is (txt "hi") n \/ is (txt "ph") n) -> x_end n = true) -> (is (txt "tuv") n -> x_end n = false) ->
    content ns v -> content (n :: ns) v.
Definition language (n : xnode) (l : ustr) : Prop :=
  (l <> [] /\ given (x_attrs n) (txt "xml:lang") l) \/ (given (x_attrs n) (txt "xml:lang") [] /\ given (x_attrs n) (txt "lang") l).
(** The variants of a unit *)
Inductive variants : list xnode -> list (ustr * list Z) -> Prop :=
| va_nil : variants [] []
| va_other n ns vs : (is (txt "tu") n -> x_end n = false) -> (is (txt "tuv") n -> x_end n = true) -> variants ns vs -> variants (n :: ns) vs
| va_one n ns m l v ns' vs : is (txt "tuv") n -> x_end n = false -> language n l -> content ns v -> is (txt "tuv") m -> x_end m = true ->
    variants ns' vs -> variants (n :: ns ++ m :: ns') ((l, v) :: vs).
Inductive memory : list xnode -> list (list (ustr * list Z)) -> Prop :=
| me_nil : memory [] []
| me_other n ns us : In (x_name n) [txt "#text"; txt "#comment"; txt "tmx"; txt "header"; txt "body"; txt "prop"] -> memory ns us -> memory (n :: ns) us
| me_unit n ns m vs ns' us : is (txt "tu") n -> x_end n = false -> variants ns vs -> is (txt "tu") m -> x_end m = true -> memory ns' us ->
    memory (n :: ns ++ m :: ns') (vs :: us).
(** The text of a unit in a language *)
Definition in_language (l : ustr) (vs : list (ustr * list Z)) : list Z := flat_map (fun v => if ustr_eq_dec (fst v) l then snd v else []) vs.
