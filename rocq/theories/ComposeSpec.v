(** What composing two transducers means, on symbols rather than codes.  Uses only the
    representation of transducers and alphabets. *)
From Verif Require Import Base CompressionModel SerialiserModel AlphabetModel TransducerModel
  TransducerSpec RelabelSpec.

Definition eps_sym : symbol := SChar 0.

(** The relation of a transducer on words of symbols, the empty symbol left out, with the
    total weight. *)
Definition is_eps (s : symbol) : bool := match s with SChar 0 => true | _ => false end.
Definition sym_in (tr : list ((symbol * symbol) * Z)) : list symbol :=
  filter (fun s => negb (is_eps s)) (map (fun x => fst (fst x)) tr).
Definition sym_out (tr : list ((symbol * symbol) * Z)) : list symbol :=
  filter (fun s => negb (is_eps s)) (map (fun x => snd (fst x)) tr).
Definition srel (t : transducer) (a : alphabet) (x y : list symbol) (c : Z) : Prop :=
  exists tr f, accepts_trace (as_symbols a) t tr f
    /\ sym_in tr = x /\ sym_out tr = y /\ weight_of tr + f = c.

(** The same read from right to left when [inv]. *)
Definition srel_o (inv : bool) (t : transducer) (a : alphabet) (x z : list symbol) (c : Z) : Prop :=
  if inv then srel t a z x c else srel t a x z c.

(** An output symbol of the first agrees with an input symbol of the second: they are
    the same, or one of them is a wildcard for the other. *)
Definition w_any_char : ustr := [60; 65; 78; 89; 95; 67; 72; 65; 82; 62].
Definition w_any_tag : ustr := [60; 65; 78; 89; 95; 84; 65; 71; 62].
Definition agree (m m' : symbol) : Prop :=
  m = m'
  \/ match m, m' with
     | STag s, STag o => s = w_any_tag \/ o = w_any_tag
     | STag s, SChar c => s = w_any_char /\ 0 < c
     | SChar c, STag o => o = w_any_char /\ 0 < c
     | SChar _, SChar _ => False
     end.

(** The symbol as it can be written in alphabet [a]: a tag unknown there is lost. *)
Definition writable (a : alphabet) (s : symbol) : bool :=
  match s with STag n => isSymbolDefined n a | SChar _ => true end.
Definition as_written (a : alphabet) (s : symbol) : symbol := if writable a s then s else eps_sym.

(** Reading pairs from right to left. *)
Definition orient (inv : bool) {X} (p : X * X) : X * X := if inv then (snd p, fst p) else p.

Definition otr (inv : bool) (tr : list ((symbol * symbol) * Z)) : list ((symbol * symbol) * Z) :=
  map (fun e => (orient inv (fst e), snd e)) tr.

(** No wildcard on any arc; every output tag known in the alphabet [a']. *)
Definition wild (s : symbol) : Prop := s = STag w_any_char \/ s = STag w_any_tag.
Definition plain (t : transducer) (a : alphabet) : Prop :=
  forall p b q w x, has_arc t p b q w -> as_symbols a b x -> ~ wild (fst x) /\ ~ wild (snd x).
Definition outputs_known (t : transducer) (a a' : alphabet) : Prop :=
  forall p b q w x, has_arc t p b q w -> as_symbols a b x -> writable a' (snd x) = true.

(** The steps of the two transducers side by side. *)
Section Product.
  Context (f g : transducer) (f_a g_a : alphabet) (inv anywhere : bool).

  Inductive pmove : nat * nat -> symbol * symbol -> Z -> nat * nat -> Prop :=
  | pm_g p q b o w q' :
      has_arc g q b q' w -> as_symbols g_a b (eps_sym, o) ->
      pmove (p, q) (orient inv (eps_sym, as_written f_a o)) w (p, q')
  | pm_both p q a i m w1 p' b m' o w2 q' :
      has_arc f p a p' w1 -> as_symbols f_a a (orient inv (i, m)) ->
      has_arc g q b q' w2 -> as_symbols g_a b (m', o) ->
      m' <> eps_sym -> agree m m' ->
      pmove (p, q) (orient inv (i, as_written f_a o)) (w1 + w2) (p', q')
  | pm_f p q a i w p' :
      has_arc f p a p' w -> as_symbols f_a a (orient inv (i, eps_sym)) ->
      pmove (p, q) (orient inv (i, eps_sym)) w (p', q)
  | pm_copy p a x w p' :
      anywhere = true -> has_arc f p a p' w -> as_symbols f_a a x ->
      pmove (p, initial g) x w (p', initial g).

  Inductive ptrace : nat * nat -> list ((symbol * symbol) * Z) -> nat * nat -> Prop :=
  | pt_nil k : ptrace k [] k
  | pt_cons k x w k' tr k'' : pmove k x w k' -> ptrace k' tr k'' -> ptrace k ((x, w) :: tr) k''.

  (** Where the pair may stop, and with which weight. *)
  Definition pfinal (k : nat * nat) (c : Z) : Prop :=
    exists c1, final_wt f (fst k) c1
      /\ ((exists c2, final_wt g (snd k) c2 /\ c = c1 + c2)
          \/ (anywhere = true /\ snd k = initial g /\ (forall c2, ~ final_wt g (snd k) c2) /\ c = c1)).

  Definition paccepts (tr : list ((symbol * symbol) * Z)) (c : Z) : Prop :=
    exists k, ptrace (initial f, initial g) tr k /\ pfinal k c.
End Product.
