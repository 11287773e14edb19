(** Model of lttoolbox/serialiser.h and deserialiser.h.  Definitions only.

    The C++ templates are indexed by a type; here by a code [ty].  A stream open for
    writing is the list of bytes put; a stream open for reading is the list of bytes
    left.  Failure of the output stream is not modelled. *)
From Verif Require Import Base.

(** The integer types with a Serialiser specialisation
    (serialiser.h:68-115, deserialiser.h:53-89). *)
Inductive kind := KI64 | KU64 | KI32 | KU32 | KChar | KUChar.

(** The types that can be serialised.  [TSeq] is std::vector and std::basic_string
    (same format, both append), [TSet] std::set, [TMap] std::map, [TMMap]
    std::multimap, [TDouble] a double as its 64-bit pattern. *)
Inductive ty :=
| TInt (k : kind)
| TDouble
| TPair (a b : ty)
| TSeq (a : ty)
| TSet (a : ty)
| TMap (k v : ty)
| TMMap (k v : ty).

Inductive sval :=
| SInt (z : Z)
| SPair (a b : sval)
| SSeq (l : list sval).

(** serialiser.h:34-48 [compressedSize]: the loop shifts right by 8*k until at most
    255 is left.  For values below 2^64 at most seven shifts are needed. *)
Fixpoint csize_loop (fuel k : nat) (v : Z) : nat :=
  match fuel with
  | O => S k
  | S f => if Z.shiftr v (8 * Z.of_nat k) >? 255 then csize_loop f (S k) v else S k
  end.
Definition compressedSize (v : Z) : nat := csize_loop 8 0 v.

(** serialiser.h:166-170: bytes from the most significant one down. *)
Fixpoint put_bytes (n : nat) (v : Z) : list Z :=
  match n with
  | O => []
  | S k => Z.shiftr v (8 * Z.of_nat k) mod 256 :: put_bytes k v
  end.

(** serialiser.h:154-187 [int_serialise] on an unsigned value. *)
Definition int_serialise (v : Z) : list Z :=
  Z.of_nat (compressedSize v) :: put_bytes (compressedSize v) v.

(** Width of the unsigned type each kind is converted to before writing
    (serialiser.h:189-221) and through which it is read (deserialiser.h:151-179). *)
Definition ser_bits (k : kind) : Z :=
  match k with
  | KI64 | KU64 | KI32 | KU32 => 64
  | KChar => 8
  | KUChar => 16
  end.

(** Conversion of [z] to a signed type of [bits] bits. *)
Definition to_signed (bits z : Z) : Z :=
  let m := z mod 2 ^ bits in if m <? 2 ^ (bits - 1) then m else m - 2 ^ bits.

(** The implicit conversion of the value returned by [int_deserialise] to the type the
    specialisation returns.  [Deserialiser<UChar>] is declared to return [char]
    (deserialiser.h:86-89, 177-179): the value goes through a signed 8-bit type and is
    then stored in a UChar. *)
Definition from_wire (k : kind) (u : Z) : Z :=
  match k with
  | KI64 => to_signed 64 u
  | KU64 => u
  | KI32 => to_signed 32 u
  | KU32 => u mod 2 ^ 32
  | KChar => to_signed 8 u
  | KUChar => to_signed 8 u mod 2 ^ 16
  end.

(** deserialiser.h:134-142: the accumulation loop; [Throw] at end of stream. *)
Fixpoint get_bytes (bits : Z) (n : nat) (inp : list Z) (acc : Z) : outcome (Z * list Z) :=
  match n with
  | O => Ok (acc, inp)
  | S k =>
      match inp with
      | [] => Throw
      | b :: r => get_bytes bits k r ((acc + Z.shiftl b (8 * Z.of_nat k)) mod 2 ^ bits)
      end
  end.

(** deserialiser.h:125-149 [int_deserialise].  A size byte above 8 (64-bit type) or 4
    (narrow types, promoted to int) makes the shift undefined. *)
Definition int_deserialise (bits : Z) (inp : list Z) : outcome (Z * list Z) :=
  match inp with
  | [] => Throw
  | s :: r =>
      if s >? (if bits =? 64 then 8 else 4) then UB
      else get_bytes bits (Z.to_nat s) r 0
  end.

(** C++'s ordering on the key types: integers by value, pairs, strings and vectors
    lexicographically. *)
Fixpoint scmp (a b : sval) {struct a} : comparison :=
  match a, b with
  | SInt x, SInt y => Z.compare x y
  | SPair x1 x2, SPair y1 y2 =>
      match scmp x1 y1 with Eq => scmp x2 y2 | c => c end
  | SSeq l1, SSeq l2 =>
      (fix lex (l1 l2 : list sval) : comparison :=
         match l1, l2 with
         | [], [] => Eq
         | [], _ :: _ => Lt
         | _ :: _, [] => Gt
         | x :: r1, y :: r2 => match scmp x y with Eq => lex r1 r2 | c => c end
         end) l1 l2
  | _, _ => Eq
  end.

(** The part of an element the container is ordered by. *)
Definition skey (x : sval) : sval := match x with SPair k _ => k | _ => x end.

(** Insertion into an ordered container: unique keys (set, map; an existing key wins)
    or equivalent keys (multimap; after the existing ones).  The code uses
    [std::inserter], a hinted insertion; for elements arriving in order the hint is
    the end and this is what it does.  For a corrupt stream with equal multimap keys
    out of order the position among equal keys may differ; not modelled. *)
Fixpoint insert_unique (key : sval -> sval) (x : sval) (l : list sval) : list sval :=
  match l with
  | [] => [x]
  | y :: r =>
      match scmp (key x) (key y) with
      | Lt => x :: l
      | Eq => l
      | Gt => y :: insert_unique key x r
      end
  end.

Fixpoint insert_equal (key : sval -> sval) (x : sval) (l : list sval) : list sval :=
  match l with
  | [] => [x]
  | y :: r =>
      match scmp (key x) (key y) with
      | Lt => x :: l
      | Eq | Gt => y :: insert_equal key x r
      end
  end.

(** What [*(insert_it++) = v] does to the container of type [t]. *)
Definition container_insert (t : ty) (l : list sval) (x : sval) : list sval :=
  match t with
  | TSet _ => insert_unique (fun v => v) x l
  | TMap _ _ => insert_unique skey x l
  | TMMap _ _ => insert_equal skey x l
  | _ => l ++ [x]
  end.

(** serialiser.h:130-152, 189-246: all specialisations of [Serialiser::serialise].
    Values that do not have the type are given the empty encoding; theorems exclude
    them.  Container sizes are written as uint64_t. *)
Fixpoint serialise (t : ty) (v : sval) {struct t} : list Z :=
  match t, v with
  | TInt k, SInt z => int_serialise (z mod 2 ^ ser_bits k)
  | TDouble, SInt z => int_serialise (z mod 2 ^ 64)
  | TPair a b, SPair x y => serialise a x ++ serialise b y
  | TSeq a, SSeq l | TSet a, SSeq l =>
      int_serialise (Z.of_nat (length l) mod 2 ^ 64) ++ flat_map (serialise a) l
  | TMap a b, SSeq l | TMMap a b, SSeq l =>
      int_serialise (Z.of_nat (length l) mod 2 ^ 64)
      ++ flat_map (fun e => match e with
                            | SPair x y => serialise a x ++ serialise b y
                            | _ => []
                            end) l
  | _, _ => []
  end.

(** deserialiser.h:104-106, 200-202: the loop reading [n] elements. *)
Fixpoint read_elems (d : list Z -> outcome (sval * list Z)) (ins : list sval -> sval -> list sval)
    (n : nat) (acc : list sval) (inp : list Z) : outcome (sval * list Z) :=
  match n with
  | O => Ok (SSeq acc, inp)
  | S k =>
      let! (x, r) := d inp in
      read_elems d ins k (ins acc x) r
  end.

(** deserialiser.h:97-123 and 151-206: all specialisations of
    [Deserialiser::deserialise]. *)
Fixpoint deserialise (t : ty) (inp : list Z) {struct t} : outcome (sval * list Z) :=
  match t with
  | TInt k =>
      let! (u, r) := int_deserialise (ser_bits k) inp in
      Ok (SInt (from_wire k u), r)
  | TDouble =>
      let! (u, r) := int_deserialise 64 inp in
      Ok (SInt u, r)
  | TPair a b =>
      let! (x, r) := deserialise a inp in
      let! (y, r) := deserialise b r in
      Ok (SPair x y, r)
  | TSeq a | TSet a =>
      let! (n, r) := int_deserialise 64 inp in
      read_elems (deserialise a) (container_insert t) (Z.to_nat n) [] r
  | TMap a b | TMMap a b =>
      let! (n, r) := int_deserialise 64 inp in
      read_elems (fun i =>
                    let! (x, r) := deserialise a i in
                    let! (y, r) := deserialise b r in
                    Ok (SPair x y, r))
        (container_insert t) (Z.to_nat n) [] r
  end.

(** The C++ types used by Transducer::serialise (transducer.cc:654-660) and
    Alphabet::serialise (alphabet.cc:190-195). *)
Definition ty_int : ty := TInt KI32.
Definition ty_ustring : ty := TSeq (TInt KUChar).
Definition ty_finals : ty := TMap ty_int TDouble.
Definition ty_transitions : ty := TMap ty_int (TMMap ty_int (TPair ty_int TDouble)).
Definition ty_transducer : ty := TPair ty_int (TPair ty_finals ty_transitions).
Definition ty_slexicinv : ty := TSeq ty_ustring.
Definition ty_spairinv : ty := TSeq (TPair ty_int ty_int).
