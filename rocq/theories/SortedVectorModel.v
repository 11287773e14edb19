(** Model of lttoolbox/sorted_vector.hpp.  Definitions only.

    The container is its element list.  The C++ standard algorithms lower_bound,
    merge, sort and unique are modelled by linear functions with the results the
    standard prescribes; iterators are positions. *)
From Verif Require Import Base.

Section SortedVector.
  Context {A : Type} (ltb : A -> A -> bool) (eqb : A -> A -> bool).

  (** std::lower_bound on a partitioned range: how many leading elements are < t. *)
  Fixpoint lower_bound (t : A) (l : list A) : nat :=
    match l with
    | [] => 0
    | x :: r => if ltb x t then S (lower_bound t r) else 0
    end.

  (** std::vector::insert at a position. *)
  Definition insert_at (i : nat) (t : A) (l : list A) : list A :=
    firstn i l ++ t :: skipn i l.

  (** sorted_vector.hpp:60-72 [insert]. *)
  Definition sv_insert (t : A) (l : list A) : list A :=
    match l with
    | [] => [t]
    | _ =>
        let at_ := lower_bound t l in
        match nth_error l at_ with
        | None => insert_at at_ t l
        | Some x => if ltb x t || ltb t x then insert_at at_ t l else l
        end
    end.

  (** sorted_vector.hpp:28-41 [detail::is_sorted]. *)
  Fixpoint is_sorted_from (first : A) (l : list A) : bool :=
    match l with
    | [] => true
    | next :: r => if ltb next first then false else is_sorted_from next r
    end.
  Definition is_sorted (l : list A) : bool :=
    match l with
    | [] => true
    | x :: r => is_sorted_from x r
    end.

  (** std::merge (the first range wins on equivalent elements). *)
  Fixpoint merge (a : list A) : list A -> list A :=
    fix merge_a (b : list A) : list A :=
      match a, b with
      | [], _ => b
      | _, [] => a
      | x :: a', y :: b' => if ltb y x then y :: merge_a b' else x :: merge a' b
      end.

  (** std::sort, as insertion sort. *)
  Fixpoint sort_insert (t : A) (l : list A) : list A :=
    match l with
    | [] => [t]
    | x :: r => if ltb t x then t :: l else x :: sort_insert t r
    end.
  Fixpoint sort (l : list A) : list A :=
    match l with
    | [] => []
    | x :: r => sort_insert x (sort r)
    end.

  (** std::unique followed by erase: keep the first of each run of equal elements. *)
  Fixpoint unique_from (x : A) (l : list A) : list A :=
    match l with
    | [] => [x]
    | y :: r => if eqb x y then unique_from x r else x :: unique_from y r
    end.
  Definition unique (l : list A) : list A :=
    match l with
    | [] => []
    | x :: r => unique_from x r
    end.

  (** sorted_vector.hpp:74-99 [insert(b, e)]. *)
  Definition sv_insert_range (range : list A) (l : list A) : list A :=
    match range with
    | [x] => sv_insert x l
    | _ =>
        let merged :=
          if is_sorted range then merge l range else merge l (sort range) in
        unique merged
    end.

  (** std::vector::erase at a position. *)
  Definition erase_at (i : nat) (l : list A) : list A := firstn i l ++ skipn (S i) l.

  (** sorted_vector.hpp:105-121 [erase]: the new contents and the result. *)
  Definition sv_erase (t : A) (l : list A) : list A * bool :=
    match l with
    | [] => (l, false)
    | front :: _ =>
        if ltb (last l front) t then (l, false)
        else if ltb t front then (l, false)
        else
          let i := lower_bound t l in
          match nth_error l i with
          | Some x => if negb (ltb x t) && negb (ltb t x) then (erase_at i l, true)
                      else (l, false)
          | None => (l, false)
          end
    end.

  (** sorted_vector.hpp:128-133 [erase(b, e)]. *)
  Definition sv_erase_range (range : list A) (l : list A) : list A :=
    fold_left (fun l t => fst (sv_erase t l)) range l.

  (** sorted_vector.hpp:135-150 [find]: the position, [length l] meaning end(). *)
  Definition sv_find (t : A) (l : list A) : nat :=
    match l with
    | [] => length l
    | front :: _ =>
        if ltb (last l front) t then length l
        else if ltb t front then length l
        else
          let i := lower_bound t l in
          match nth_error l i with
          | Some x => if ltb x t || ltb t x then length l else i
          | None => i
          end
    end.

  (** sorted_vector.hpp:152-154 [count]. *)
  Definition sv_count (t : A) (l : list A) : bool := negb (sv_find t l =? length l)%nat.

  (** sorted_vector.hpp:208-225 [intersects]: the two-pointer loop. *)
  Fixpoint sv_intersects (a : list A) : list A -> bool :=
    fix go (b : list A) : bool :=
      match a, b with
      | [], _ => false
      | _, [] => false
      | x :: a', y :: b' =>
          if eqb x y then true
          else if ltb x y then sv_intersects a' b
          else go b'
      end.

  (** The modifying calls. *)
  Inductive svop :=
  | SvInsert (t : A)
  | SvInsertRange (range : list A)
  | SvErase (t : A)
  | SvEraseRange (range : list A)
  | SvClear.

  Definition sv_run (l : list A) (o : svop) : list A :=
    match o with
    | SvInsert t => sv_insert t l
    | SvInsertRange r => sv_insert_range r l
    | SvErase t => fst (sv_erase t l)
    | SvEraseRange r => sv_erase_range r l
    | SvClear => []
    end.
End SortedVector.

Arguments SvInsert {A} t.
Arguments SvInsertRange {A} range.
Arguments SvErase {A} t.
Arguments SvEraseRange {A} range.
Arguments SvClear {A}.

(** sorted_vector.hpp:245-247 [assign(const_iterator, const_iterator)]: copies the range
    as it is. *)
Definition sv_assign {A} (range : list A) (l : list A) : list A := range.
