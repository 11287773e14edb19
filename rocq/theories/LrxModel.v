(** Matched rules of lexical selection (lttoolbox/state.cc:579-624 [filterFinalsLRX]).
    Definitions only.

    [firstupper] and [firstchar] are parameters the function does not use. *)
From Verif Require Import Base CompressionModel AlphabetModel StateModel StateSpec FinalsModel.

(** operator< of strings and of vectors and pairs of them, as std::set uses it *)
Fixpoint cmp_lex {T : Type} (cmp : T -> T -> comparison) (a b : list T) : comparison :=
  match a, b with
  | [], [] => Eq
  | [], _ => Lt
  | _, [] => Gt
  | x :: a, y :: b => match cmp x y with Eq => cmp_lex cmp a b | c => c end
  end.
Definition rule : Type := (ustr * list ustr)%type.
Definition cmp_str : ustr -> ustr -> comparison := cmp_lex Z.compare.
Definition cmp_rule (a b : rule) : comparison :=
  match cmp_str (fst a) (fst b) with Eq => cmp_lex cmp_str (snd a) (snd b) | c => c end.
(** std::set::insert *)
Fixpoint rule_insert (x : rule) (l : list rule) : list rule :=
  match l with
  | [] => [x]
  | y :: r => match cmp_rule x y with Lt => x :: l | Eq => l | Gt => y :: rule_insert x r end
  end.

Definition mark : ustr := [60; 36; 62].  (* <$> *)
Section Lrx.
  Context (u_toupper : Z -> Z) (fins : list (nat * Z)) (a : alphabet) (escaped : Z -> bool) (upper : bool).
  (** 596-618: the words of one sequence and what follows the last mark *)
  Fixpoint lrx_walk (seq : list (Z * Z)) (word : ustr) (words : list ustr) : outcome rule :=
    match seq with
    | [] => Ok (word, words)
    | (c, _) :: r =>
        let word := if escaped c then word ++ [92] else word in
        let! sym := getSymbolCase u_toupper c upper a in
        if ustr_eq_dec sym mark then lrx_walk r [] (match word with [] => words | _ => words ++ [word] end)
        else lrx_walk r (word ++ sym) words
    end.
  (** 590-623 *)
  Fixpoint lrx_loop (st : list (vns (W:=Z))) (results : list rule) : outcome (list rule) :=
    match st with
    | [] => Ok results
    | s :: r =>
        match final_weight (v_where s) fins with
        | None => lrx_loop r results
        | Some _ => let! x := lrx_walk (v_seq s) [] [] in lrx_loop r (rule_insert x results)
        end
    end.
  Definition filterFinalsLRX (st : list (vns (W:=Z))) : outcome (list rule) := lrx_loop st [].
End Lrx.
