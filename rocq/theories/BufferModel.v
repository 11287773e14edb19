(** Buffer (lttoolbox/buffer.h), the circular input buffer.  Definitions only.

    Positions are unsigned int: arithmetic is modulo 2^32.  An element never written is
    [None] and reading it is [UB], as is an index outside the array. *)
From Verif Require Import Base.

Definition u32 (x : Z) : Z := x mod 2 ^ 32.

Section BufferModel.
  Context {A : Type}.

  Record buffer := mkB { b_size : Z; b_buf : list (option A); b_cur : Z; b_last : Z }.

  Fixpoint set_cell (i : nat) (v : option A) (l : list (option A)) : list (option A) :=
    match l, i with
    | [], _ => []
    | _ :: r, O => v :: r
    | x :: r, S i => x :: set_cell i v r
    end.
  Definition read_cell (l : list (option A)) (i : Z) : outcome A :=
    if i <? 0 then UB
    else match nth_error l (Z.to_nat i) with Some (Some v) => Ok v | _ => UB end.

  (** buffer.h:71-82: the constructor. *)
  Definition new_buffer (size : Z) : outcome buffer :=
    if size =? 0 then Exit else Ok (mkB size (repeat None (Z.to_nat size)) 0 0).

  (** buffer.h:127-136 [add(value)]. *)
  Definition add (v : A) (b : buffer) : outcome buffer :=
    let last := if b_last b =? b_size b then 0 else b_last b in
    if (last <? 0) || (Z.of_nat (length (b_buf b)) <=? last) then UB
    else Ok (mkB (b_size b) (set_cell (Z.to_nat last) (Some v) (b_buf b)) (last + 1) (last + 1)).

  (** buffer.h:201-211 [last]. *)
  Definition last_elem (b : buffer) : outcome A :=
    if negb (b_last b =? 0) then read_cell (b_buf b) (b_last b - 1)
    else read_cell (b_buf b) (b_size b - 1).

  (** buffer.h:159-173 [next]. *)
  Definition next (b : buffer) : outcome (A * buffer) :=
    if negb (b_cur b =? b_last b) then
      let cur := if b_cur b =? b_size b then 0 else b_cur b in
      let! v := read_cell (b_buf b) cur in
      Ok (v, mkB (b_size b) (b_buf b) (cur + 1) (b_last b))
    else
      let! v := last_elem b in Ok (v, b).

  (** buffer.h:179-195 [peek]. *)
  Definition peek (b : buffer) : outcome A :=
    if negb (b_cur b =? b_last b) then
      if b_cur b =? b_size b then read_cell (b_buf b) 0 else read_cell (b_buf b) (b_cur b)
    else last_elem b.

  (** buffer.h:218-221, 227-230, 272-275. *)
  Definition getPos (b : buffer) : Z := b_cur b.
  Definition setPos (newpos : Z) (b : buffer) : buffer :=
    mkB (b_size b) (b_buf b) (u32 newpos mod b_size b) (b_last b).
  Definition isEmpty (b : buffer) : bool := b_cur b =? b_last b.

  (** buffer.h:238-248 [diffPrevPos], 256-266 [diffPostPos]. *)
  Definition diffPrevPos (prevpos : Z) (b : buffer) : Z :=
    if prevpos <=? b_cur b then u32 (b_cur b - prevpos) else u32 (b_cur b + b_size b - prevpos).
  Definition diffPostPos (postpos : Z) (b : buffer) : Z :=
    if b_cur b <=? postpos then u32 (postpos - b_cur b) else u32 (postpos + b_size b - b_cur b).

  (** buffer.h:281-291 [back]. *)
  Definition back (posback : Z) (b : buffer) : buffer :=
    mkB (b_size b) (b_buf b)
      (if posback <? b_cur b then b_cur b - posback else u32 (b_size b - (posback - b_cur b)))
      (b_last b).

  (** buffer.h:52-59 [copy]: [size] bytes are copied, elements have [es] bytes. *)
  Fixpoint copy_bytes (bytes es : Z) (l : list (option A)) : list (option A) :=
    match l with
    | [] => []
    | x :: r => (if es <=? bytes then x else None) :: copy_bytes (bytes - es) es r
    end.
  Definition copy (es : Z) (b : buffer) : buffer :=
    mkB (b_size b) (copy_bytes (b_size b) es (b_buf b)) (b_cur b) (b_last b).

  (** A program using one buffer: positions obtained from getPos are kept in a list, the
      latest first, and referred to by index. *)
  Inductive bop :=
  | BAdd (v : A) | BNext | BPeek | BLast | BIsEmpty
  | BSave                       (* pos = getPos() *)
  | BRestore (k : nat) (j : Z)  (* setPos(pos_k + j) *)
  | BBack (n : Z)
  | BDiffPrev (k : nat).
  (** What a call returns. *)
  Inductive bobs := OUnit | OVal (v : A) | OBool (x : bool) | ONum (n : Z).

  Definition bexec (b : buffer) (saved : list Z) (op : bop) : outcome (buffer * list Z * bobs) :=
    match op with
    | BAdd v => let! b := add v b in Ok (b, saved, OUnit)
    | BNext => let! (v, b) := next b in Ok (b, saved, OVal v)
    | BPeek => let! v := peek b in Ok (b, saved, OVal v)
    | BLast => let! v := last_elem b in Ok (b, saved, OVal v)
    | BIsEmpty => Ok (b, saved, OBool (isEmpty b))
    | BSave => Ok (b, getPos b :: saved, OUnit)
    | BRestore k j => Ok (setPos (nth k saved 0 + j) b, saved, OUnit)
    | BBack n => Ok (back n b, saved, OUnit)
    | BDiffPrev k => Ok (b, saved, ONum (diffPrevPos (nth k saved 0) b))
    end.
  Fixpoint brun (b : buffer) (saved : list Z) (ops : list bop) : outcome (list bobs) :=
    match ops with
    | [] => Ok []
    | op :: r =>
        let! (b, saved, o) := bexec b saved op in
        let! l := brun b saved r in
        Ok (o :: l)
    end.
  Definition bprogram (size : Z) (ops : list bop) : outcome (list bobs) :=
    let! b := new_buffer size in brun b [] ops.
End BufferModel.
Arguments buffer : clear implicits.
Arguments bop : clear implicits.
Arguments bobs : clear implicits.
