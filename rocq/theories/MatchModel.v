(** The pattern matcher: SortedVector (lttoolbox/sorted_vector.cc), MatchNode and MatchExe
    (match_node.cc, match_exe.cc), MatchState (match_state.cc), and the tag splitting of
    PatternList (pattern_list.cc:230-290).  Definitions only.

    A node pointer is the node's index in node_list.  An array element never written is
    [None]; reading it is [UB]. *)
From Verif Require Import Base CompressionModel TransducerModel.

(** * SortedVector::search, sorted_vector.cc:79-101
    Array of (tag, destination); weights are never read.  [left], [right], [mid] are int;
    the arrays are far smaller than 2^30. *)
Fixpoint sv_search_loop (fuel : nat) (sv : list (Z * nat)) (tag left right : Z)
  : outcome (option nat) :=
  if negb (left <=? right) then Ok None
  else
    match fuel with
    | O => NoFuel
    | S fuel =>
        let mid := (left + right) / 2 in
        if mid <? 0 then UB
        else match nth_error sv (Z.to_nat mid) with
             | None => UB
             | Some (t, d) =>
                 if t =? tag then Ok (Some d)
                 else if tag <? t then sv_search_loop fuel sv tag left (mid - 1)
                 else sv_search_loop fuel sv tag (mid + 1) right
             end
    end.
Definition sv_search (sv : list (Z * nat)) (tag : Z) : outcome (option nat) :=
  sv_search_loop (S (length sv)) sv tag 0 (Z.of_nat (length sv) - 1).

(** * MatchExe, match_exe.cc:37-71: one array per state, in the order of its multimap. *)
Definition node_table : Type := list (list (Z * nat)).
Definition match_exe (t : transducer) : node_table :=
  map (map (fun a => (a_tag a, a_dst a))) (trans t).

(** * MatchState *)
Section MatchState.
  (** BUF_LIMIT, match_state.cc:23 *)
  Context (lim : nat).
  Context (nodes : node_table).

  Record mstate := mkM { m_state : list (option nat); m_first : nat; m_last : nat }.

  (** match_state.cc:25-29 *)
  Definition m_new : mstate := mkM (repeat None lim) 0 0.

  Fixpoint m_put (i : nat) (v : option nat) (l : list (option nat)) : list (option nat) :=
    match l, i with
    | [], _ => []
    | _ :: r, O => v :: r
    | x :: r, S i => x :: m_put i v r
    end.

  (** match_state.cc:76-80 [size] *)
  Definition m_size (s : mstate) : nat :=
    if (m_first s <=? m_last s)%nat then m_last s - m_first s else m_last s + lim - m_first s.

  (** match_state.cc:82-88 [init] *)
  Definition m_init (initial : nat) (s : mstate) : mstate :=
    mkM (m_put 0 (Some initial) (m_state s)) 0 1.

  (** match_state.cc:90-99 [applySymbol] on the node at position [i] *)
  Definition applySymbol (arr : list (option nat)) (last i : nat) (symbol : Z)
    : outcome (list (option nat) * nat) :=
    match nth_error arr i with
    | Some (Some pnode) =>
        match nth_error nodes pnode with
        | None => UB
        | Some sv =>
            let! aux := sv_search sv symbol in
            match aux with
            | None => Ok (arr, last)
            | Some n => if (last <? length arr)%nat
                        then Ok (m_put last (Some n) arr, ((last + 1) mod lim)%nat) else UB
            end
        end
    | _ => UB
    end.
  Fixpoint apply_symbols (arr : list (option nat)) (last i : nat) (symbols : list Z)
    : outcome (list (option nat) * nat) :=
    match symbols with
    | [] => Ok (arr, last)
    | x :: r => let! (arr, last) := applySymbol arr last i x in apply_symbols arr last i r
    end.
  (** match_state.cc:101-110 [step(input)] with one symbol, 112-122 [step(input, alt)]
      with two. *)
  Fixpoint m_loop (fuel : nat) (arr : list (option nat)) (last i mylast : nat) (symbols : list Z)
    : outcome (list (option nat) * nat) :=
    if (i =? mylast)%nat then Ok (arr, last)
    else
      match fuel with
      | O => NoFuel
      | S fuel =>
          let! (arr, last) := apply_symbols arr last i symbols in
          m_loop fuel arr last ((i + 1) mod lim)%nat mylast symbols
      end.
  Definition m_step (symbols : list Z) (s : mstate) : outcome mstate :=
    let mylast := m_last s in
    let! (arr, last) := m_loop lim (m_state s) (m_last s) (m_first s) mylast symbols in
    Ok (mkM arr mylast last).

  (** match_state.cc:149-153 [clear] *)
  Definition m_clear (s : mstate) : mstate := mkM (m_state s) 0 0.

  (** match_state.cc:131-147 [classifyFinals]; [final_class] maps nodes to rule numbers. *)
  Fixpoint class_of (n : nat) (final_class : list (nat * Z)) : option Z :=
    match final_class with
    | [] => None
    | (m, c) :: r => if (m =? n)%nat then Some c else class_of n r
    end.
  Fixpoint classify_loop (fuel : nat) (arr : list (option nat)) (i last : nat)
      (final_class : list (nat * Z)) (banned : list Z) (result : Z) : outcome Z :=
    if (i =? last)%nat then Ok result
    else
      match fuel with
      | O => NoFuel
      | S fuel =>
          match nth_error arr i with
          | Some (Some n) =>
              classify_loop fuel arr ((i + 1) mod lim)%nat last final_class banned
                (match class_of n final_class with
                 | Some c => if (c <? result) && negb (existsb (Z.eqb c) banned) then c else result
                 | None => result
                 end)
          | _ => UB
          end
      end.
  Definition m_int_max : Z := 2 ^ 31 - 1.
  Definition classifyFinals (final_class : list (nat * Z)) (banned : list Z) (s : mstate)
    : outcome Z :=
    let! result := classify_loop lim (m_state s) (m_first s) (m_last s) final_class banned m_int_max in
    Ok (if result <? m_int_max then result else -1).

  (** A program using one MatchState: init, then calls. *)
  Inductive mop := MInit (n : nat) | MStep (symbols : list Z) | MClear.
  Definition m_exec (s : mstate) (op : mop) : outcome mstate :=
    match op with
    | MInit n => Ok (m_init n s)
    | MStep l => m_step l s
    | MClear => Ok (m_clear s)
    end.
  Fixpoint m_run (s : mstate) (ops : list mop) : outcome mstate :=
    match ops with
    | [] => Ok s
    | op :: r => let! s := m_exec s op in m_run s r
    end.
End MatchState.
Definition BUF_LIMIT : nat := 1024.

(** * PatternList::tagCount, pattern_list.cc:230-248 *)
Fixpoint tag_count_loop (first : bool) (tags : list Z) : Z :=
  match tags with
  | [] => 0
  | c :: r => (if first then 1 else if c =? 46 then 1 else 0) + tag_count_loop false r
  end.
Definition tagCount (tags : list Z) : Z := tag_count_loop true tags.

(** string_view::substr(pos, n): throws if pos is beyond the end. *)
Definition substr (l : list Z) (pos n : Z) : outcome (list Z) :=
  if Z.of_nat (length l) <? pos then Throw
  else Ok (firstn (Z.to_nat n) (skipn (Z.to_nat pos) l)).

(** PatternList::tagAt, pattern_list.cc:250-290; [i] is the index of the first unit of
    [rest] in [tags]. *)
Fixpoint tag_at_loop (tags : list Z) (index : Z) (i : Z) (rest : list Z) (start end_ count : Z)
  : outcome (list Z) :=
  match rest with
  | [] =>
      if count <? index then Ok []
      else if negb (end_ =? 0) then substr tags (end_ + 1) (Z.of_nat (length tags))
      else substr tags end_ (Z.of_nat (length tags))
  | c :: r =>
      let '(start, end_, count) :=
        if c =? 46 then ((if end_ =? 0 then 0 else end_ + 1), i, count + 1)
        else (start, end_, count) in
      if count =? index + 1 then substr tags start (end_ - start)
      else tag_at_loop tags index (i + 1) r start end_ count
  end.
Definition tagAt (tags : list Z) (index : Z) : outcome (list Z) :=
  tag_at_loop tags index 0 tags 0 0 0.
