(** Model of Transducer::compose (lttoolbox/transducer.cc:1373-1571), composeLabel
    (transducer.h:454-471) and Alphabet::sameSymbol (alphabet.cc:322-340).  Definitions
    only.  Representation as in TransducerModel.v and AlphabetModel.v.  The [cerr]/exit of
    1430-1433 is the outcome Exit; [g.transitions.at] on a missing state, which would
    throw, reads as no arcs here (the theorems are about transducers whose arcs lead to
    existing states). *)
From Verif Require Import Base CompressionModel SerialiserModel SortedVectorModel
  AlphabetModel TransducerModel.

(** ** sameSymbol *)
Definition any_char : ustr := [60; 65; 78; 89; 95; 67; 72; 65; 82; 62]. (* <ANY_CHAR> *)
Definition any_tag : ustr := [60; 65; 78; 89; 95; 84; 65; 71; 62].      (* <ANY_TAG> *)

Definition str_eqb (a b : ustr) : bool := if ustr_eq_dec a b then true else false.

(** slexicinv[-sym-1] for a negative symbol. *)
Definition tag_name (sym : Z) (a : alphabet) : outcome ustr :=
  match nth_error (slexicinv a) (Z.to_nat (- sym - 1)) with Some s => Ok s | None => UB end.

(** alphabet.cc:322-340 with allow_anys = true.  For negative symbols both names are read,
    in the code only as far as needed; a name outside its vector is UB either way. *)
Definition sameSymbol (this : alphabet) (tsym : Z) (other : alphabet) (osym : Z) : outcome bool :=
  if (0 <=? tsym) && (tsym =? osym) then Ok true
  else
    let! tn := if tsym <? 0 then let! s := tag_name tsym this in Ok (Some s) else Ok None in
    let! on := if osym <? 0 then let! s := tag_name osym other in Ok (Some s) else Ok None in
    Ok (match tn, on with
        | Some s, Some o => str_eqb s o || str_eqb s any_tag || str_eqb o any_tag
        | Some s, None => str_eqb s any_char && (0 <? osym)
        | None, Some o => str_eqb o any_char && (0 <? tsym)
        | None, None => false
        end).

(** ** composeLabel *)
Definition composeLabel (f_a g_a : alphabet) (f_input g_right : Z) (f_inverted : bool)
  : outcome (Z * alphabet) :=
  let! r := if 0 <=? g_right then Ok g_right
            else let! s := getSymbol g_right g_a in Ok (symbol_code s f_a) in
  Ok (pair_code (if f_inverted then (r, f_input) else (f_input, r)) f_a).

(** ** The search *)
Definition spair_t : Type := (nat * nat)%type.
Definition spair_dec (a b : spair_t) : {a = b} + {a <> b}.
Proof. decide equality; apply Nat.eq_dec. Defined.

Record cst := mkC {
  c_gf : transducer;                    (* gf *)
  c_map : list (spair_t * nat);         (* states_f_g_gf *)
  c_todo : list spair_t;                (* todo, the top of the stack first *)
  c_seen : list spair_t;                (* seen *)
  c_alpha : alphabet                    (* f_a *)
}.

Fixpoint cfind (k : spair_t) (m : list (spair_t * nat)) : option nat :=
  match m with
  | [] => None
  | (k', v) :: r => if spair_dec k k' then Some v else cfind k r
  end.
Definition mem_pair (k : spair_t) (l : list spair_t) : bool :=
  if in_dec spair_dec k l then true else false.

(** transducer.cc:1449-1461, 1496-1508, 1514-1526, 1531-1543: push the next pair unless
    seen, give it a state, link. *)
Definition c_visit (gf_src : nat) (next : spair_t) (label weight : Z) (st : cst) : outcome cst :=
  let todo := if mem_pair next (c_seen st) then c_todo st else next :: c_todo st in
  let '(gf_trg, gf, m) :=
    match cfind next (c_map st) with
    | Some s => (s, c_gf st, c_map st)
    | None => let '(s, gf) := newState (c_gf st) in (s, gf, (next, s) :: c_map st)
    end in
  let! gf := linkStates gf_src gf_trg label weight gf in
  Ok (mkC gf m todo (c_seen st) (c_alpha st)).

(** The same with the label from composeLabel. *)
Definition c_visit_new (g_a : alphabet) (f_inverted : bool) (gf_src : nat) (next : spair_t)
    (f_input g_right weight : Z) (st : cst) : outcome cst :=
  let! (label, f_a) := composeLabel (c_alpha st) g_a f_input g_right f_inverted in
  c_visit gf_src next label weight
    (mkC (c_gf st) (c_map st) (c_todo st) (c_seen st) f_a).

Section Compose.
  Context (f g : transducer) (g_a : alphabet) (f_inverted g_anywhere : bool).

  (** transducer.cc:1437-1463: the arcs of g with empty input. *)
  Fixpoint c_geps (f_src gf_src : nat) (arcs : list arc) (st : cst) : outcome cst :=
    match arcs with
    | [] => Ok st
    | a :: r =>
        let! (g_left, g_right) := decode (a_tag a) g_a in
        let! st :=
          if g_left =? 0
          then c_visit_new g_a f_inverted gf_src (f_src, a_dst a) 0 g_right (a_wt a) st
          else Ok st in
        c_geps f_src gf_src r st
    end.

  (** transducer.cc:1483-1510: the other arcs of g against one arc of f. *)
  Fixpoint c_match (gf_src f_trg : nat) (f_input f_output f_wt : Z) (arcs : list arc) (st : cst)
    : outcome cst :=
    match arcs with
    | [] => Ok st
    | a :: r =>
        let! (g_left, g_right) := decode (a_tag a) g_a in
        let! same :=
          if g_left =? 0 then Ok false else sameSymbol (c_alpha st) f_output g_a g_left in
        let! st :=
          if same
          then c_visit_new g_a f_inverted gf_src (f_trg, a_dst a) f_input g_right
                 (f_wt + a_wt a) st
          else Ok st in
        c_match gf_src f_trg f_input f_output f_wt r st
    end.

  (** transducer.cc:1467-1545: the arcs of f. *)
  Fixpoint c_farcs (g_src gf_src : nat) (arcs : list arc) (st : cst) : outcome cst :=
    match arcs with
    | [] => Ok st
    | a :: r =>
        let! pr := decode (a_tag a) (c_alpha st) in
        let '(f_input, f_output) := if f_inverted then (snd pr, fst pr) else pr in
        let! st := c_match gf_src (a_dst a) f_input f_output (a_wt a) (arcs_of g g_src) st in
        let! st :=
          if g_anywhere && (g_src =? initial g)%nat
          then c_visit gf_src (a_dst a, g_src) (a_tag a) (a_wt a) st else Ok st in
        let! st :=
          if f_output =? 0
          then c_visit gf_src (a_dst a, g_src) (a_tag a) (a_wt a) st else Ok st in
        c_farcs g_src gf_src r st
    end.

  (** transducer.cc:1422-1546. *)
  Fixpoint c_loop (fuel : nat) (st : cst) : outcome cst :=
    match c_todo st with
    | [] => Ok st
    | current :: todo =>
        match fuel with
        | O => NoFuel
        | S fuel =>
            let st := mkC (c_gf st) (c_map st) todo (current :: c_seen st) (c_alpha st) in
            match cfind current (c_map st) with
            | None => Exit
            | Some gf_src =>
                let! st := c_geps (fst current) gf_src (arcs_of g (snd current)) st in
                let! st := c_farcs (snd current) gf_src (arcs_of f (fst current)) st in
                c_loop fuel st
            end
        end
    end.

  (** transducer.cc:1548-1562: the final states of gf. *)
  Definition c_final (e : spair_t * nat) (fin : list (nat * Z)) : list (nat * Z) :=
    let '((s_f, s_g), s_gf) := e in
    match fin_find s_f (finals f) with
    | Some wf =>
        match fin_find s_g (finals g) with
        | Some wg => fin_insert s_gf (wf + wg) fin
        | None => if g_anywhere && (initial g =? s_g)%nat then fin_insert s_gf (wf + 0) fin else fin
        end
    | None => fin
    end.
  Definition c_finals (m : list (spair_t * nat)) : list (nat * Z) :=
    fold_left (fun fin e => c_final e fin) m [].
End Compose.

(** The whole: f is this transducer, its finals joined first (1416). *)
Definition compose (fuel : nat) (g : transducer) (f_a g_a : alphabet)
    (f_inverted g_anywhere : bool) (epsilon_tag : Z) (this : transducer)
  : outcome (transducer * alphabet) :=
  let! f := joinFinals epsilon_tag this in
  let start := (initial f, initial g) in
  let! st := c_loop f g g_a f_inverted g_anywhere fuel
               (mkC new_transducer [(start, initial new_transducer)] [start] [] f_a) in
  Ok (mkT (initial (c_gf st)) (c_finals f g g_anywhere (c_map st)) (trans (c_gf st)), c_alpha st).
