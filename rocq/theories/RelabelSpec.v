(** What a transducer over an alphabet relates: the sequences of decoded labels along its
    accepting paths.  Uses only the representation. *)
From Verif Require Import Base CompressionModel SerialiserModel AlphabetModel TransducerModel
  TransducerSpec.

Section Traces.
  Context {X : Type} (D : Z -> X -> Prop).
  (** Paths, reading tag [a] as [x] when [D a x]. *)
  Inductive trace (t : transducer) : nat -> list (X * Z) -> nat -> Prop :=
  | trace_nil p : trace t p [] p
  | trace_cons p a x w q tr r :
      has_arc t p a q w -> D a x -> trace t q tr r -> trace t p ((x, w) :: tr) r.
  (** An accepted sequence of readings with arc weights, and the final weight. *)
  Definition accepts_trace (t : transducer) (tr : list (X * Z)) (f : Z) : Prop :=
    exists q, trace t (initial t) tr q /\ final_wt t q f.
End Traces.

(** A tag read as a pair of symbol codes. *)
Definition as_pair (a : alphabet) (tag : Z) (p : Z * Z) : Prop := decode tag a = Ok p.

(** A symbol: a named tag or a character (0 is the empty symbol). *)
Inductive symbol := STag (name : ustr) | SChar (c : Z).
Definition as_symbol (a : alphabet) (s : Z) (x : symbol) : Prop :=
  match x with
  | STag name => s < 0 /\ getSymbol s a = Ok name
  | SChar c => 0 <= s /\ s = c
  end.
(** A tag read as a pair of symbols. *)
Definition as_symbols (a : alphabet) (tag : Z) (p : symbol * symbol) : Prop :=
  exists l r, decode tag a = Ok (l, r) /\ as_symbol a l (fst p) /\ as_symbol a r (snd p).

(** Every tag in the transducer can be read in the alphabet. *)
Definition tags_in (t : transducer) (a : alphabet) : Prop :=
  forall p tag q w, has_arc t p tag q w -> exists x, decode tag a = Ok x.
Definition symbols_in (t : transducer) (a : alphabet) : Prop :=
  forall p tag q w, has_arc t p tag q w -> exists x, as_symbols a tag x.

(** Same states, final states and weights. *)
Definition same_frame (t t' : transducer) : Prop :=
  initial t' = initial t /\ finals t' = finals t /\ nstates t' = nstates t.

(** The relation of a transducer: input word, output word (symbol codes without epsilon)
    and total weight. *)
Definition in_word (tr : list ((Z * Z) * Z)) : list Z :=
  filter (fun c => negb (c =? 0)) (map (fun x => fst (fst x)) tr).
Definition out_word (tr : list ((Z * Z) * Z)) : list Z :=
  filter (fun c => negb (c =? 0)) (map (fun x => snd (fst x)) tr).
Definition weight_of {X} (tr : list (X * Z)) : Z := fold_right (fun x c => snd x + c) 0 tr.
Definition relates (t : transducer) (a : alphabet) (x y : list Z) (c : Z) : Prop :=
  exists tr f, accepts_trace (as_pair a) t tr f
    /\ in_word tr = x /\ out_word tr = y /\ weight_of tr + f = c.

(** Input symbol [i] has the declared equivalent [i']. *)
Definition equivalent (acx : list (Z * list Z)) (i i' : Z) : Prop :=
  exists syms, In (i, syms) acx /\ In i' syms.

(** The input side of a path spells a string of UTF-16 units. *)
Inductive spells (a : alphabet) : list label -> ustr -> Prop :=
| spells_nil : spells a [] []
| spells_cons tag w l i o u s :
    decode tag a = Ok (i, o) -> getSymbol i a = Ok u -> spells a l s ->
    spells a ((tag, w) :: l) (u ++ s).
