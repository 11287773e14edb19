(** What lt-proc -s should print (C84): words are runs of letters; each one is replaced by an
    analysis, or marked as unknown; everything else is kept. *)
From Verif Require Import Base AlphabetModel StateModel StateSpec FinalsModel
  InputModel InputProps ProcessorModel ProcessorProofs CompoundProps AnalysisSpec.

(** * Texts: characters, the special ones behind a backslash, blocks of CDATA *)
Inductive part := Ch (c : Z) | Special (c : Z) | Cdata (body : list Z).
Definition part_text (i : part) : list Z :=
  match i with
  | Ch c => [c]
  | Special c => [92; c]
  | Cdata b => [60; 33; 91; 67; 68; 65; 84; 65; 91] ++ b ++ [93; 93; 62]
  end.
Definition parts_text (l : list part) : list Z := concat (map part_text l).
(** A block is read as a space. *)
Definition part_symbol (i : part) : Z := match i with Ch c | Special c => c | Cdata _ => 32 end.
Notation special c := (In c [92; 60; 62]).
(** The first "]]>" ends a block. *)
Definition part_ok (i : part) : Prop :=
  match i with
  | Ch c => scalar c /\ c <> 0 /\ ~ special c
  | Special c => special c
  | Cdata b => Forall scalar b /\ ~ In 0 b /\ ~ In 92 b
      /\ forall x y, b ++ [93; 93; 62] = x ++ [93; 93; 62] ++ y -> y = []
  end.

(** The text of an analysis: &name; for a tag, and all in capitals if the word is *)
Inductive rendered (a : alphabet) (toupper : Z -> Z) (upper : bool) : list (Z * Z) -> ustr -> Prop :=
| rn_nil : rendered a toupper upper [] []
| rn_none w s t : rendered a toupper upper s t -> rendered a toupper upper ((0, w) :: s) t
| rn_tag c name w s t : c < 0 -> nth_error (slexicinv a) (Z.to_nat (- c - 1)) = Some (60 :: name ++ [62]) ->
    rendered a toupper upper s t -> rendered a toupper upper ((c, w) :: s) (38 :: name ++ 59 :: t)
| rn_special c w s t : special c -> rendered a toupper upper s t ->
    rendered a toupper upper ((c, w) :: s) (92 :: utf16 (if upper then toupper c else c) ++ t)
| rn_char c w s t : 0 < c -> ~ special c -> rendered a toupper upper s t ->
    rendered a toupper upper ((c, w) :: s) (utf16 (if upper then toupper c else c) ++ t).
(** A capital letter at the beginning, or behind '~' *)
Inductive capital (toupper : Z -> Z) : ustr -> ustr -> Prop :=
| cp_nil : capital toupper [] []
| cp_mark : capital toupper [126] [126]
| cp_marked c r : capital toupper (126 :: c :: r) (126 :: toupper c mod 2 ^ 16 :: r)
| cp_first c r : c <> 126 -> capital toupper (c :: r) (toupper c mod 2 ^ 16 :: r).

Section Spec.
  Context (P : processor) (cs : bool).
  (** [t] is printed for an analysis of [w], in the letter case of [w]. *)
  Definition annotated (w : list Z) (t : ustr) : Prop :=
    exists l d s q t0 first up,
      reading (p_isupper P) (p_tolower P) cs w l d /\ rpath (p_find P) (p_root P) l s q /\ final_weight q (all_finals P) <> None
      /\ first = p_isupper P (hd 0 (utf16_text w)) /\ up = (first && p_isupper P (last (utf16_text w) 0))
      /\ rendered (p_alpha P) (p_toupper P) up s t0 /\ (if first then capital (p_toupper P) t0 t else t = t0).
  Definition word_shown (w : list Z) (t : ustr) : Prop :=
    (accepting P cs (all_finals P) w /\ annotated w t)
    \/ (~ accepting P cs (all_finals P) w /\ t = [60; 100; 62] ++ utf16_text w ++ [60; 47; 100; 62]).
  Definition kept_part (i : part) : ustr := utf16_text (part_text i).

  (** The whole output, for a text that does not end within a word *)
  Inductive shown : list part -> ustr -> Prop :=
  | sh_end : shown [] []
  | sh_other i l o : ~ letter P (part_symbol i) -> shown l o -> shown (i :: l) (kept_part i ++ o)
  | sh_word w i l t o : w <> [] -> Forall (fun j => letter P (part_symbol j)) w -> ~ letter P (part_symbol i) ->
      word_shown (map part_symbol w) t -> shown (i :: l) o -> shown (w ++ i :: l) (t ++ o).
End Spec.
(** The text does not end with a letter. *)
Definition closed (P : processor) (l : list part) : Prop := l = [] \/ exists a i, l = a ++ [i] /\ ~ letter P (part_symbol i).

(** * The dictionaries considered; what is assumed of ICU *)
Record sao_dix (P : processor) (cs : bool) : Prop := {
  sd_incond : p_incond P = [];
  sd_postblank : p_postblank P = [];
  sd_eps : eps_acyclic (p_find P);
  (* analyses consist of characters and tags <...> *)
  sd_out : forall l s q, rpath (p_find P) (p_root P) l s q -> final_weight q (all_finals P) <> None ->
    Forall (fun x => (scalar (fst x) /\ scalar (p_toupper P (fst x)))
      \/ (fst x < 0 /\ exists name, nth_error (slexicinv (p_alpha P)) (Z.to_nat (- fst x - 1)) = Some (60 :: name ++ [62]))) s;
  (* and have no slash *)
  sd_slash : forall w t, annotated P cs w t -> ~ In 47 t;
  (* entries consist of letters, and none is empty *)
  sd_letters : forall w, living P cs w -> Forall (letter P) w;
  sd_empty : ~ accepting P cs (all_finals P) [];
  sd_space : forall c, p_isspace P c = true -> ~ letter P c;
  sd_blank : p_isspace P 32 = true /\ forall c, special c -> p_isspace P c = false;
  sd_zero : p_toupper P 0 = 0
}.
