(** Model of lttoolbox/alphabet.cc.  Definitions only.

    Strings are lists of UTF-16 units.  The two std::map members are association
    lists in insertion order, searched from the front; their iteration order is used
    only by createLoopbackSymbols, which is not modelled here.  Codes are unbounded
    integers: overflow of int32_t (more than 2^31 symbols) is not modelled. *)
From Verif Require Import Base CompressionModel SerialiserModel.

Definition ustr := list Z.
Definition ustr_eq_dec : forall a b : ustr, {a = b} + {a <> b} := list_eq_dec Z.eq_dec.
Definition pair_eq_dec : forall a b : Z * Z, {a = b} + {a <> b}.
Proof. decide equality; apply Z.eq_dec. Defined.

Section AssocMap.
  Context {K : Type} (dec : forall a b : K, {a = b} + {a <> b}).
  (** std::map::find. *)
  Fixpoint map_find (k : K) (m : list (K * Z)) : option Z :=
    match m with
    | [] => None
    | (k', v) :: r => if dec k k' then Some v else map_find k r
    end.
  (** m[k] = v. *)
  Fixpoint map_set (k : K) (v : Z) (m : list (K * Z)) : list (K * Z) :=
    match m with
    | [] => [(k, v)]
    | (k', v') :: r => if dec k k' then (k', v) :: r else (k', v') :: map_set k v r
    end.
End AssocMap.

(** alphabet.h:37-61: the four members. *)
Record alphabet := mkAlphabet {
  slexic : list (ustr * Z);
  slexicinv : list ustr;
  spair : list ((Z * Z) * Z);
  spairinv : list (Z * Z)
}.

(** alphabet.cc:32-36 constructor. *)
Definition new_alphabet : alphabet := mkAlphabet [] [] [((0, 0), 0)] [(0, 0)].

(** alphabet.cc:73-83 [includeSymbol]. *)
Definition includeSymbol (s : ustr) (a : alphabet) : alphabet :=
  match map_find ustr_eq_dec s (slexic a) with
  | Some _ => a
  | None =>
      let n := Z.of_nat (length (slexic a)) in
      mkAlphabet (map_set ustr_eq_dec s (- (n + 1)) (slexic a)) (slexicinv a ++ [s])
        (spair a) (spairinv a)
  end.

(** alphabet.cc:85-97 [operator()(c1,c2)]: the code and the updated alphabet. *)
Definition pair_code (c : Z * Z) (a : alphabet) : Z * alphabet :=
  let a' :=
    match map_find pair_eq_dec c (spair a) with
    | Some _ => a
    | None =>
        let n := Z.of_nat (length (spair a)) in
        mkAlphabet (slexic a) (slexicinv a) (map_set pair_eq_dec c n (spair a))
          (spairinv a ++ [c])
    end in
  (match map_find pair_eq_dec c (spair a') with Some v => v | None => 0 end, a').

(** alphabet.cc:99-108 [operator()(s)] on a non-const alphabet. *)
Definition symbol_code (s : ustr) (a : alphabet) : Z :=
  match map_find ustr_eq_dec s (slexic a) with Some c => c | None => 0 end.

(** alphabet.cc:110-118 [operator()(s)] on a const alphabet. *)
Definition symbol_code_const (s : ustr) (a : alphabet) : Z :=
  match map_find ustr_eq_dec s (slexic a) with Some c => c | None => -1 end.

(** alphabet.cc:120-124 [isSymbolDefined]. *)
Definition isSymbolDefined (s : ustr) (a : alphabet) : bool :=
  match map_find ustr_eq_dec s (slexic a) with Some _ => true | None => false end.

(** alphabet.cc:126-130 [size]. *)
Definition alphabet_size (a : alphabet) : Z := Z.of_nat (length (slexic a)).

(** alphabet.cc:246-250 [decode]; an index outside the vector is undefined. *)
Definition decode (code : Z) (a : alphabet) : outcome (Z * Z) :=
  if code <? 0 then UB
  else match nth_error (spairinv a) (Z.to_nat code) with Some p => Ok p | None => UB end.

(** alphabet.cc:228-240 [getSymbol] with uppercase=false: what is appended. *)
Definition getSymbol (symbol : Z) (a : alphabet) : outcome ustr :=
  if symbol =? 0 then Ok []
  else if symbol <? 0 then
    match nth_error (slexicinv a) (Z.to_nat (- symbol - 1)) with Some s => Ok s | None => UB end
  else Ok (append_cp [] symbol).

(** alphabet.cc:242-245 [isTag]. *)
Definition isTag (symbol : Z) : bool := symbol <? 0.

Fixpoint list_set {A} (i : nat) (x : A) (l : list A) : list A :=
  match l, i with
  | [], _ => []
  | _ :: r, O => x :: r
  | y :: r, S k => y :: list_set k x r
  end.

(** alphabet.cc:264-267 [setSymbol]: only the vector is changed. *)
Definition setSymbol (symbol : Z) (s : ustr) (a : alphabet) : outcome alphabet :=
  if symbol <? 0 then
    if (Z.to_nat (- symbol - 1) <? length (slexicinv a))%nat then
      Ok (mkAlphabet (slexic a) (list_set (Z.to_nat (- symbol - 1)) s (slexicinv a))
            (spair a) (spairinv a))
    else UB
  else Ok a.

(** std::basic_string::substr(1, size()-2) as used at alphabet.cc:139: throws on the
    empty string; size()-2 wraps for a single unit. *)
Definition strip_brackets (s : ustr) : outcome ustr :=
  match s with
  | [] => Throw
  | [_] => Ok []
  | _ :: r => Ok (firstn (length s - 2) r)
  end.

(** alphabet.cc:137-140. *)
Fixpoint write_tags (l : list ustr) : outcome (list Z) :=
  match l with
  | [] => Ok []
  | s :: r =>
      let! body := strip_brackets s in
      let! b := string_write body in
      let! bs := write_tags r in
      Ok (b ++ bs)
  end.

(** alphabet.cc:146-150; the sums are converted to unsigned int. *)
Fixpoint write_pairs (bias : Z) (l : list (Z * Z)) : outcome (list Z) :=
  match l with
  | [] => Ok []
  | (x, y) :: r =>
      let! a := multibyte_write (to_uint (x + bias)) in
      let! b := multibyte_write (to_uint (y + bias)) in
      let! bs := write_pairs bias r in
      Ok (a ++ b ++ bs)
  end.

(** alphabet.cc:132-151 [write]. *)
Definition alphabet_write (a : alphabet) : outcome (list Z) :=
  let! n := multibyte_write (to_uint (Z.of_nat (length (slexicinv a)))) in
  let! ts := write_tags (slexicinv a) in
  let! m := multibyte_write (to_uint (Z.of_nat (length (spairinv a)))) in
  let! ps := write_pairs (Z.of_nat (length (slexicinv a))) (spairinv a) in
  Ok (n ++ ts ++ m ++ ps).

(** alphabet.cc:163-171: '<' is 60, '>' is 62. *)
Fixpoint read_tags (n : nat) (inp : list Z) (a : alphabet) : alphabet * list Z :=
  match n with
  | O => (a, inp)
  | S k =>
      let '(body, inp) := string_read inp in
      let tag := 60 :: body ++ [62] in
      let inv := slexicinv a ++ [tag] in
      read_tags k inp
        (mkAlphabet (map_set ustr_eq_dec tag (- Z.of_nat (length inv)) (slexic a)) inv
           (spair a) (spairinv a))
  end.

(** alphabet.cc:175-185; the differences are converted to int32_t. *)
Fixpoint read_pairs (bias : Z) (n : nat) (inp : list Z) (a : alphabet) : alphabet * list Z :=
  match n with
  | O => (a, inp)
  | S k =>
      let '(first, inp) := multibyte_read inp in
      let '(second, inp) := multibyte_read inp in
      let tmp := (to_signed 32 (first - bias), to_signed 32 (second - bias)) in
      read_pairs bias k inp
        (mkAlphabet (slexic a) (slexicinv a)
           (map_set pair_eq_dec tmp (Z.of_nat (length (spair a))) (spair a))
           (spairinv a ++ [tmp]))
  end.

(** alphabet.cc:153-188 [read]. *)
Definition alphabet_read (inp : list Z) : alphabet * list Z :=
  let '(n, inp) := multibyte_read inp in
  let '(a, inp) := read_tags (Z.to_nat n) inp (mkAlphabet [] [] [] []) in
  let bias := Z.of_nat (length (slexicinv a)) in
  let '(m, inp) := multibyte_read inp in
  read_pairs bias (Z.to_nat m) inp a.

(** Conversions between the members and serialisable values. *)
Definition sv_string (s : ustr) : sval := SSeq (map SInt s).
Definition sv_pair (p : Z * Z) : sval := SPair (SInt (fst p)) (SInt (snd p)).
Definition vs_int (v : sval) : Z := match v with SInt z => z | _ => 0 end.
Definition vs_list (v : sval) : list sval := match v with SSeq l => l | _ => [] end.
Definition vs_string (v : sval) : ustr := map vs_int (vs_list v).
Definition vs_pair (v : sval) : Z * Z :=
  match v with SPair a b => (vs_int a, vs_int b) | _ => (0, 0) end.

(** alphabet.cc:190-195 [serialise]. *)
Definition alphabet_serialise (a : alphabet) : list Z :=
  serialise ty_slexicinv (SSeq (map sv_string (slexicinv a)))
  ++ serialise ty_spairinv (SSeq (map sv_pair (spairinv a))).

(** alphabet.cc:205-207: slexic[slexicinv[i]] = -i-1 for every i. *)
Fixpoint index_tags (i : nat) (l : list ustr) (m : list (ustr * Z)) : list (ustr * Z) :=
  match l with
  | [] => m
  | s :: r => index_tags (S i) r (map_set ustr_eq_dec s (- Z.of_nat i - 1) m)
  end.

(** alphabet.cc:209-211: the loop over the pairs runs to [slexicinv.size()]; reading
    spairinv past its end is undefined. *)
Fixpoint index_pairs (n i : nat) (l : list (Z * Z)) (m : list ((Z * Z) * Z))
  : outcome (list ((Z * Z) * Z)) :=
  match n with
  | O => Ok m
  | S k =>
      match nth_error l i with
      | None => UB
      | Some p => index_pairs k (S i) l (map_set pair_eq_dec p (Z.of_nat i) m)
      end
  end.

(** alphabet.cc:197-212 [deserialise]. *)
Definition alphabet_deserialise (inp : list Z) : outcome (alphabet * list Z) :=
  let! (ts, inp) := deserialise ty_slexicinv inp in
  let tags := map vs_string (vs_list ts) in
  let! (ps, inp) := deserialise ty_spairinv inp in
  let pairs := map vs_pair (vs_list ps) in
  let! sp := index_pairs (length tags) 0 pairs [] in
  Ok (mkAlphabet (index_tags 0 tags []) tags sp pairs, inp).

(** The calls a program can make on an alphabet that change or query it
    ([setSymbol] apart). *)
Inductive aop :=
| OpInclude (s : ustr)
| OpPair (c : Z * Z)
| OpLookup (s : ustr)
| OpDecode (code : Z).

Definition arun (a : alphabet) (o : aop) : alphabet :=
  match o with
  | OpInclude s => includeSymbol s a
  | OpPair c => snd (pair_code c a)
  | OpLookup s => a
  | OpDecode code => a
  end.
Definition aruns (ops : list aop) (a : alphabet) : alphabet := fold_left arun ops a.
