(** State (lttoolbox/state.cc, state.h): the live analyses during run-time processing, with
    the output sequences in heap cells handed out from a pool, as in the code.

    A pointer is an index into the heap; a deleted cell is [None] and reading, writing or
    deleting it again is [UB].  Nodes are numbers and [find p i] lists the destinations of
    transitions[i] of node p in their order: (output symbol, (target, weight)); it is empty
    exactly when the map has no entry i, since entries are created by addTransition with
    one destination (node.cc:49-82). *)
From Verif Require Import Base.

Section StateModel.
  Context {W : Type}.
  Context (find : nat -> Z -> list (Z * (nat * W))).

  Definition seq_t : Type := list (Z * W).
  Definition ptr : Type := nat.
  Definition heap : Type := list (option seq_t).

  (** state.h:45-67 *)
  Record tns := mkTN { t_where : nat; t_seq : ptr; t_dirty : bool }.
  (** One State object. The pool is a stack, top first. *)
  Record sobj := mkSO { so_state : list tns; so_pool : list ptr }.

  Definition h_get (h : heap) (p : ptr) : outcome seq_t :=
    match nth_error h p with Some (Some v) => Ok v | _ => UB end.
  Fixpoint h_put (h : heap) (p : ptr) (c : option seq_t) : heap :=
    match h, p with
    | [], _ => []
    | _ :: r, O => c :: r
    | x :: r, S p => x :: h_put r p c
    end.
  Definition h_set (h : heap) (p : ptr) (v : seq_t) : outcome heap :=
    let! _ := h_get h p in Ok (h_put h p (Some v)).
  Definition h_delete (h : heap) (p : ptr) : outcome heap :=
    let! _ := h_get h p in Ok (h_put h p None).
  Fixpoint h_delete_all (h : heap) (ps : list ptr) : outcome heap :=
    match ps with [] => Ok h | p :: r => let! h := h_delete h p in h_delete_all h r end.

  (** state.cc:70-78 [new_sequence]; 80-83 [free_sequence] is consing to the pool. *)
  Definition new_sequence (h : heap) (pool : list ptr) : ptr * heap * list ptr :=
    match pool with
    | [] => (length h, h ++ [Some []], [])
    | p :: r => (p, h, r)
    end.

  (** The recurring "auto new_v = new_sequence(); *new_v = *src; push_back(extra)". *)
  Definition h_spawn (h : heap) (pool : list ptr) (src : ptr) (extra : seq_t)
    : outcome (ptr * heap * list ptr) :=
    let '(p, h, pool) := new_sequence h pool in
    let! v := h_get h src in
    let! h := h_set h p (v ++ extra) in
    Ok (p, h, pool).

  (** state.cc:54-68 [destroy]. *)
  Definition destroy (h : heap) (o : sobj) : outcome (heap * sobj) :=
    let! h := h_delete_all h (map t_seq (so_state o)) in
    let! h := h_delete_all h (so_pool o) in
    Ok (h, mkSO [] []).

  (** state.cc:85-105 [copy]: the pool is emptied of its cells but not cleared. *)
  Fixpoint copy_cells (h : heap) (pool : list ptr) (st : list tns)
    : outcome (heap * list ptr * list tns) :=
    match st with
    | [] => Ok (h, pool, [])
    | s :: r =>
        let! (p, h, pool) := h_spawn h pool (t_seq s) [] in
        let! (h, pool, r) := copy_cells h pool r in
        Ok (h, pool, mkTN (t_where s) p (t_dirty s) :: r)
    end.
  Definition copy (h : heap) (o : sobj) (s : sobj) : outcome (heap * sobj) :=
    let! h := h_delete_all h (map t_seq (so_state o)) in
    let! h := h_delete_all h (so_pool o) in
    let! (h, pool, st) := copy_cells h (so_pool o) (so_state s) in
    Ok (h, mkSO st pool).
  (** state.cc:37-40: the copy constructor, into a fresh object. *)
  Definition copy_ctor (h : heap) (s : sobj) : outcome (heap * sobj) := copy h (mkSO [] []) s.
  (** state.cc:42-52 [operator =] (different objects). *)
  Definition assign (h : heap) (o s : sobj) : outcome (heap * sobj) :=
    let! (h, o) := destroy h o in copy h o s.

  (** state.cc:129-138, 151-167: the destinations of one transition; [ov] is the
      replacement of the output symbol (identity without override); [app] tells whether the
      output is appended. *)
  Fixpoint spawn_dests (h : heap) (pool : list ptr) (s : tns) (dirty : bool)
      (extra : Z -> W -> seq_t) (ds : list (Z * (nat * W))) : outcome (heap * list ptr * list tns) :=
    match ds with
    | [] => Ok (h, pool, [])
    | (o, (q, w)) :: r =>
        let! (p, h, pool) := h_spawn h pool (t_seq s) (extra o w) in
        let! (h, pool, l) := spawn_dests h pool s dirty extra r in
        Ok (h, pool, mkTN q p (t_dirty s || dirty) :: l)
    end.
  (** state.cc:122-142 [apply_into] and 144-171 [apply_into_override]. *)
  Definition apply_into (h : heap) (pool : list ptr) (ov : Z -> Z) (input : Z) (s : tns)
      (dirty : bool) : outcome (heap * list ptr * list tns) :=
    spawn_dests h pool s dirty (fun o w => if input =? 0 then [] else [(ov o, w)])
      (find (t_where s) input).

  Fixpoint apply_opts (h : heap) (pool : list ptr) (ov : Z -> Z) (s : tns)
      (opts : list (Z * bool)) : outcome (heap * list ptr * list tns) :=
    match opts with
    | [] => Ok (h, pool, [])
    | (i, d) :: r =>
        let! (h, pool, l) := apply_into h pool ov i s d in
        let! (h, pool, l') := apply_opts h pool ov s r in
        Ok (h, pool, l ++ l')
    end.
  (** The loops "for each live analysis: apply_into for each alternative, free": the
      alternatives may depend on the node (apply_careful). *)
  Fixpoint apply_all (h : heap) (pool : list ptr) (ov : Z -> Z) (opts : nat -> list (Z * bool))
      (st : list tns) : outcome (heap * list ptr * list tns) :=
    match st with
    | [] => Ok (h, pool, [])
    | s :: r =>
        let! (h, pool, l) := apply_opts h pool ov s (opts (t_where s)) in
        let pool := t_seq s :: pool in
        let! (h, pool, l') := apply_all h pool ov opts r in
        Ok (h, pool, l ++ l')
    end.
  Definition apply_gen (h : heap) (o : sobj) (ov : Z -> Z) (opts : nat -> list (Z * bool))
    : outcome (heap * sobj) :=
    let! (h, pool, st) := apply_all h (so_pool o) ov opts (so_state o) in
    Ok (h, mkSO st pool).

  Definition same (o : Z) : Z := o.
  Definition override (old_sym new_sym : Z) (o : Z) : Z := if o =? old_sym then new_sym else o.

  (** state.cc:173-190 [apply(input)]. *)
  Definition apply1 (h : heap) (o : sobj) (input : Z) : outcome (heap * sobj) :=
    if input =? 0 then destroy h o else apply_gen h o same (fun _ => [(input, false)]).
  (** state.cc:192-210 [apply_override(input, old_sym, new_sym)]. *)
  Definition apply_override3 (h : heap) (o : sobj) (input old_sym new_sym : Z)
    : outcome (heap * sobj) :=
    if (input =? 0) || (old_sym =? 0) then destroy h o
    else apply_gen h o (override old_sym new_sym) (fun _ => [(input, false); (old_sym, true)]).
  (** state.cc:212-237 [apply_override(input, alt, old_sym, new_sym)]. *)
  Definition apply_override4 (h : heap) (o : sobj) (input alt old_sym new_sym : Z)
    : outcome (heap * sobj) :=
    if input =? alt then apply_override3 h o input old_sym new_sym
    else if (input =? 0) || (old_sym =? 0) then destroy h o
    else apply_gen h o (override old_sym new_sym)
           (fun _ => [(input, false); (alt, true); (old_sym, true)]).
  (** state.cc:239-263 [apply(input, alt)]. *)
  Definition apply2 (h : heap) (o : sobj) (input alt : Z) : outcome (heap * sobj) :=
    if (input =? 0) || (alt =? 0) then destroy h o
    else if input =? alt then apply1 h o input
    else apply_gen h o same (fun _ => [(input, false); (alt, true)]).
  (** state.cc:265-285 [apply_careful]: the alternative only if the first made no move. *)
  Definition apply_careful (h : heap) (o : sobj) (input alt : Z) : outcome (heap * sobj) :=
    if (input =? 0) || (alt =? 0) then destroy h o
    else apply_gen h o same
           (fun p => match find p input with [] => [(alt, true)] | _ => [(input, false)] end).
  (** state.cc:309-338 [apply(input, alt1, alt2)]: with a 0 the analyses are dropped and
      their cells leak. *)
  Definition apply3 (h : heap) (o : sobj) (input alt1 alt2 : Z) : outcome (heap * sobj) :=
    if (input =? 0) || (alt1 =? 0) || (alt2 =? 0) then Ok (h, mkSO [] (so_pool o))
    else if input =? alt1 then apply2 h o input alt2
    else if input =? alt2 then apply2 h o input alt1
    else apply_gen h o same (fun _ => [(input, false); (alt1, true); (alt2, true)]).
  (** state.cc:341-372 [apply(input, set)]; [alts] in increasing order. *)
  Definition apply_set (h : heap) (o : sobj) (input : Z) (alts : list Z) : outcome (heap * sobj) :=
    if (input =? 0) || existsb (fun a => a =? 0) alts then Ok (h, mkSO [] (so_pool o))
    else apply_gen h o same
           (fun _ => (input, false)
              :: map (fun a => (a, true)) (filter (fun a => negb (a =? input)) alts)).

  (** state.cc:287-307 [epsilonClosure]: index i runs over the growing vector. *)
  Definition eps_extra (o : Z) (w : W) : seq_t := if o =? 0 then [] else [(o, w)].
  Fixpoint closure (fuel : nat) (h : heap) (pool : list ptr) (i : nat) (st : list tns)
    : outcome (heap * list ptr * list tns) :=
    match nth_error st i with
    | None => Ok (h, pool, st)
    | Some s =>
        match fuel with
        | O => NoFuel
        | S fuel =>
            let! (h, pool, l) := spawn_dests h pool s false eps_extra (find (t_where s) 0) in
            closure fuel h pool (S i) (st ++ l)
        end
    end.
  Definition epsilonClosure (fuel : nat) (h : heap) (o : sobj) : outcome (heap * sobj) :=
    let! (h, pool, st) := closure fuel h (so_pool o) 0 (so_state o) in
    Ok (h, mkSO st pool).

  (** state.cc:113-120 [init]: the old analyses' cells leak. *)
  Definition init (fuel : nat) (h : heap) (o : sobj) (initial : nat) : outcome (heap * sobj) :=
    let '(p, h, pool) := new_sequence h (so_pool o) in
    let! h := h_set h p [] in
    epsilonClosure fuel h (mkSO [mkTN initial p false] pool).

  (** state.cc:457-469 [step_optional]. *)
  Fixpoint optional_all (h : heap) (pool : list ptr) (val : Z) (st : list tns)
    : outcome (heap * list ptr * list tns) :=
    match st with
    | [] => Ok (h, pool, [])
    | s :: r =>
        let! (h, pool, l) := apply_into h pool same val s false in
        let! (h, pool, l') := optional_all h pool val r in
        Ok (h, pool, l ++ l')
    end.
  Definition step_optional (fuel : nat) (h : heap) (o : sobj) (val : Z) : outcome (heap * sobj) :=
    if val =? 0 then Ok (h, o)
    else
      let! (h, pool, l) := optional_all h (so_pool o) val (so_state o) in
      let! (h, pool, l) := closure fuel h pool 0 l in
      Ok (h, mkSO (so_state o ++ l) pool).

  (** state.cc:880-899 [lastPartHasRequiredSymbol], from the end. *)
  Fixpoint last_part_has (required sep : Z) (rseq : list (Z * W)) : bool :=
    match rseq with
    | [] => false
    | (s, _) :: r => if s =? required then true else if s =? sep then false
                     else last_part_has required sep r
    end.
  Definition lastPartHasRequiredSymbol (seq : seq_t) (required sep : Z) : bool :=
    last_part_has required sep (rev seq).

  (** state.cc:902-936 [restartFinals]; [st] the analyses from index i on; those pushed
      at the end are visited too. *)
  Fixpoint restart_one (h : heap) (pool : list ptr) (src : ptr) (dirty : bool) (extra : seq_t)
      (rs : list tns) : outcome (heap * list ptr * list tns) :=
    match rs with
    | [] => Ok (h, pool, [])
    | r :: rs =>
        let! (p, h, pool) := h_spawn h pool src extra in
        let! (h, pool, l) := restart_one h pool src dirty extra rs in
        Ok (h, pool, mkTN (t_where r) p dirty :: l)
    end.
  Fixpoint restart_loop (fuel : nat) (final : nat -> bool) (required sep : Z) (w0 : W)
      (rs : list tns) (h : heap) (pool : list ptr) (i : nat) (st : list tns)
    : outcome (heap * list ptr * list tns) :=
    match nth_error st i with
    | None => Ok (h, pool, st)
    | Some s =>
        match fuel with
        | O => NoFuel
        | S fuel =>
            let! v := h_get h (t_seq s) in
            let! (h, pool, l) :=
              if final (t_where s) && lastPartHasRequiredSymbol v required sep
              then restart_one h pool (t_seq s) (t_dirty s) [(sep, w0)] rs
              else Ok (h, pool, []) in
            restart_loop fuel final required sep w0 rs h pool (S i) (st ++ l)
        end
    end.
  (** [w0] is the weight 0.0 *)
  Definition restartFinals (fuel : nat) (h : heap) (o : sobj) (final : nat -> bool)
      (required : Z) (restart_state : sobj) (sep : Z) (w0 : W) : outcome (heap * sobj) :=
    let! (h, pool, st) :=
      restart_loop fuel final required sep w0 (so_state restart_state) h (so_pool o) 0
        (so_state o) in
    Ok (h, mkSO st pool).

  (** Reading all the sequences. *)
  Fixpoint h_get_all (h : heap) (st : list tns) : outcome (list seq_t) :=
    match st with
    | [] => Ok []
    | s :: r => let! v := h_get h (t_seq s) in let! l := h_get_all h r in Ok (v :: l)
    end.

  (** state.cc:788-830 [pruneCompounds].  The separators between the second and the
      last but one position are counted; [INT_MAX] stands for "not allowed". *)
  Definition int_max : Z := 2 ^ 31 - 1.
  Definition count_sep (sep : Z) (seq : seq_t) : Z :=
    Z.of_nat (length (filter (fun x => fst x =? sep) (removelast (tl seq)))).
  Definition compound_elements (required sep : Z) (seq : seq_t) : Z :=
    if lastPartHasRequiredSymbol seq required sep then count_sep sep seq else int_max.
  Definition min_elements (required sep maxel : Z) (seqs : list seq_t) : Z :=
    fold_left (fun m seq => if lastPartHasRequiredSymbol seq required sep
                            then Z.min m (count_sep sep seq) else m) seqs maxel.
  (** The second loop: analyses with their numbers; dropped ones' cells go to the pool. *)
  Fixpoint prune_by (keep : list bool) (st : list tns) (pool : list ptr)
    : list tns * list ptr :=
    match keep, st with
    | true :: ks, s :: r => let '(l, pool) := prune_by ks r pool in (s :: l, pool)
    | false :: ks, s :: r => prune_by ks r (t_seq s :: pool)
    | _, _ => ([], pool)
    end.
  Definition pruneCompounds (h : heap) (o : sobj) (required sep maxel : Z)
    : outcome (heap * sobj) :=
    let! seqs := h_get_all h (so_state o) in
    let m := min_elements required sep maxel seqs in
    let keep := map (fun s => negb (m <? compound_elements required sep s)) seqs in
    let '(st, pool) := prune_by keep (so_state o) (so_pool o) in
    Ok (h, mkSO st pool).
  (** state.cc:834-857 [pruneStatesWithForbiddenSymbol]. *)
  Definition pruneForbidden (h : heap) (o : sobj) (forbidden : Z) : outcome (heap * sobj) :=
    let! seqs := h_get_all h (so_state o) in
    let keep := map (fun s => negb (existsb (fun x => fst x =? forbidden) s)) seqs in
    let '(st, pool) := prune_by keep (so_state o) (so_pool o) in
    Ok (h, mkSO st pool).

  (** state.cc:966-975 [merge]. *)
  Definition merge (h : heap) (o other : sobj) : outcome (heap * sobj) :=
    let! (h, pool, l) := copy_cells h (so_pool o) (so_state other) in
    Ok (h, mkSO (so_state o ++ l) pool).

  (** The character tests of ICU used by step_case; arbitrary functions here. *)
  Context (u_isupper : Z -> bool) (u_tolower : Z -> Z).

  (** The public member functions that change an object; [SAssign], [SMerge] and
      [SRestart] read a second object, given by its number. *)
  Inductive sop :=
  | SInit (n : nat)
  | SStep (input : Z)
  | SStep2 (input alt : Z)
  | SStep3 (input alt1 alt2 : Z)
  | SStepSet (input : Z) (alts : list Z)
  | SStepCareful (input alt : Z)
  | SOverride3 (input old_sym new_sym : Z)
  | SOverride4 (input alt old_sym new_sym : Z)
  | SCase (val : Z) (caseSensitive : bool)
  | SCase2 (val val2 : Z) (caseSensitive : bool)
  | SCaseOverride (val : Z) (caseSensitive : bool)
  | SOptional (val : Z)
  | SPruneCompounds (required sep maxel : Z)
  | SPruneForbidden (forbidden : Z)
  | SRestart (final : nat -> bool) (required : Z) (restart_state : nat) (sep : Z) (w0 : W)
  | SMerge (other : nat)
  | SAssign (other : nat)
  | SDestroy.

  (** state.cc:374-455: step = apply, then epsilonClosure; the case variants choose one. *)
  Definition then_closure (fuel : nat) (r : outcome (heap * sobj)) : outcome (heap * sobj) :=
    let! (h, o) := r in epsilonClosure fuel h o.
  Definition step (fuel : nat) (h : heap) (o : sobj) (op : sop) : outcome (heap * sobj) :=
    let go r := then_closure fuel r in
    match op with
    | SStep i => go (apply1 h o i)
    | SStep2 i a => go (apply2 h o i a)
    | SStep3 i a b => go (apply3 h o i a b)
    | SStepSet i l => go (apply_set h o i l)
    | SStepCareful i a => go (apply_careful h o i a)
    | SOverride3 i x y => go (apply_override3 h o i x y)
    | SOverride4 i a x y => go (apply_override4 h o i a x y)
    | SCase v cs =>
        if negb (u_isupper v) || cs then go (apply1 h o v)
        else go (apply2 h o v (u_tolower v))
    | SCase2 v v2 cs =>
        if negb (u_isupper v) || cs then go (apply2 h o v v2)
        else if negb (v =? u_tolower v) then go (apply3 h o v (u_tolower v) v2)
        else go (apply2 h o v v2)
    | SCaseOverride v cs =>
        if negb (u_isupper v) || cs then go (apply1 h o v)
        else go (apply_override4 h o v (u_tolower v) (u_tolower v) v)
    | _ => Ok (h, o)
    end.

  (** A program's State objects, all on one heap. *)
  Record world := mkSW { w_heap : heap; w_objs : list sobj }.
  Definition w_get (w : world) (k : nat) : sobj := nth k (w_objs w) (mkSO [] []).
  Fixpoint put_nth {A} (k : nat) (x : A) (l : list A) : list A :=
    match l, k with
    | [], _ => []
    | _ :: r, O => x :: r
    | y :: r, S k => y :: put_nth k x r
    end.
  (** One call on object [k]; a call on or with an object that does not exist changes
      nothing.  [this != &s] is the test of operator =; restartFinals and merge with the
      object itself are left out (they would not terminate or iterate over a vector while
      appending to it). *)
  Definition exec (fuel : nat) (w : world) (k : nat) (op : sop) : outcome world :=
    if negb (k <? length (w_objs w))%nat then Ok w
    else
      let h := w_heap w in
      let o := w_get w k in
      let other j (f : sobj -> outcome (heap * sobj)) :=
        if negb (j <? length (w_objs w))%nat || (j =? k)%nat then Ok (h, o) else f (w_get w j) in
      let! (h, o) :=
        match op with
        | SInit n => init fuel h o n
        | SOptional v => step_optional fuel h o v
        | SPruneCompounds r s m => pruneCompounds h o r s m
        | SPruneForbidden f => pruneForbidden h o f
        | SRestart fin r j s w0 => other j (fun rs => restartFinals fuel h o fin r rs s w0)
        | SMerge j => other j (fun x => merge h o x)
        | SAssign j => other j (fun x => assign h o x)
        | SDestroy => destroy h o
        | op => step fuel h o op
        end in
      Ok (mkSW h (put_nth k o (w_objs w))).
  Fixpoint exec_all (fuel : nat) (w : world) (ops : list (nat * sop)) : outcome world :=
    match ops with
    | [] => Ok w
    | (k, op) :: r => let! w := exec fuel w k op in exec_all fuel w r
    end.
  (** [n] freshly constructed objects. *)
  Definition fresh_world (n : nat) : world := mkSW [] (repeat (mkSO [] []) n).
End StateModel.
