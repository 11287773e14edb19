(** Model of lttoolbox/compression.cc, compression.h and the UTF-16 helpers of
    ustring.h / ustring.cc.  Definitions only. *)
From Verif Require Import Base.

(** A FILE open for writing is the list of bytes written so far, returned as the
    bytes appended by the call; a FILE open for reading is the list of bytes not yet
    consumed.  I/O errors while writing (compression.cc:29-33) are not modelled. *)

(** Conversion to [unsigned char]. *)
Definition to_uchar (v : Z) : Z := v mod 256.
(** Conversion to [unsigned int] (32 bits). *)
Definition to_uint (v : Z) : Z := v mod 2 ^ 32.
(** Conversion from [unsigned int] to [int] (two's complement, as on every platform
    lttoolbox supports). *)
Definition to_int (v : Z) : Z := if v <? 2 ^ 31 then v else v - 2 ^ 32.

(** compression.cc:36-48 [readByte]: at end of file the byte 0 is returned and no
    error is reported. *)
Definition readByte (inp : list Z) : Z * list Z :=
  match inp with
  | [] => (0, [])
  | b :: r => (b, r)
  end.

(** compression.cc:50-93 [multibyte_write]; the ostream variant 95-140 is the same
    code with a different sink. *)
Definition multibyte_write (value : Z) : outcome (list Z) :=
  if value <? 0x40 then Ok [to_uchar value]
  else if value <? 0x4000 then
    let low := to_uchar value in
    let up := to_uchar (Z.shiftr value 8) in
    let up := Z.lor up 0x40 in
    Ok [up; low]
  else if value <? 0x400000 then
    let low := to_uchar value in
    let middle := to_uchar (Z.shiftr value 8) in
    let up := to_uchar (Z.shiftr value 16) in
    let up := Z.lor up 0x80 in
    Ok [up; middle; low]
  else if value <? 0x40000000 then
    let low := to_uchar value in
    let middlelow := to_uchar (Z.shiftr value 8) in
    let middleup := to_uchar (Z.shiftr value 16) in
    let up := to_uchar (Z.shiftr value 24) in
    let up := Z.lor up 0xc0 in
    Ok [up; middleup; middlelow; low]
  else Exit.

(** compression.cc:143-194 [multibyte_read]; the istream variant is 196-254. *)
Definition multibyte_read (inp : list Z) : Z * list Z :=
  let '(up, inp) := readByte inp in
  if up <? 0x40 then (up, inp)
  else if up <? 0x80 then
    let up := Z.land up 0x3f in
    let aux := to_uint (Z.shiftl up 8) in
    let '(low, inp) := readByte inp in
    (Z.lor low aux, inp)
  else if up <? 0xc0 then
    let up := Z.land up 0x3f in
    let aux := to_uint (Z.shiftl up 8) in
    let '(middle, inp) := readByte inp in
    let aux := Z.lor middle aux in
    let aux := to_uint (Z.shiftl aux 8) in
    let '(low, inp) := readByte inp in
    (Z.lor low aux, inp)
  else
    let up := Z.land up 0x3f in
    let aux := to_uint (Z.shiftl up 8) in
    let '(middleup, inp) := readByte inp in
    let aux := Z.lor middleup aux in
    let aux := to_uint (Z.shiftl aux 8) in
    let '(middlelow, inp) := readByte inp in
    let aux := Z.lor middlelow aux in
    let aux := to_uint (Z.shiftl aux 8) in
    let '(low, inp) := readByte inp in
    (Z.lor low aux, inp).

(** Writing several integers one after the other, as every caller does. *)
Fixpoint multibyte_write_list (vs : list Z) : outcome (list Z) :=
  match vs with
  | [] => Ok []
  | v :: r =>
      let! b := multibyte_write v in
      let! bs := multibyte_write_list r in
      Ok (b ++ bs)
  end.

(** Reading [n] integers. *)
Fixpoint multibyte_read_list (n : nat) (inp : list Z) : list Z * list Z :=
  match n with
  | O => ([], inp)
  | S k =>
      let '(v, inp) := multibyte_read inp in
      let '(vs, inp) := multibyte_read_list k inp in
      (v :: vs, inp)
  end.

(** ustring.h:80-88 [operator+=(UString&, UChar32)]: the UTF-16 units appended for
    code point [c]; the conversion to [UChar] is modulo 2^16. *)
Definition append_cp (str : list Z) (c : Z) : list Z :=
  if c <=? 0xFFFF then str ++ [c mod 2 ^ 16]
  else str ++ [ (0xD800 + Z.shiftr (c - 0x10000) 10) mod 2 ^ 16;
                (0xDC00 + Z.land c 0x3FF) mod 2 ^ 16 ].

(** ICU's [U16_IS_LEAD] / [U16_IS_TRAIL] / [U16_GET_SUPPLEMENTARY]
    (unicode/utf16.h), used through [U16_NEXT]. *)
Definition u16_is_lead (u : Z) : bool := Z.land u 0xfffffc00 =? 0xd800.
Definition u16_is_trail (u : Z) : bool := Z.land u 0xfffffc00 =? 0xdc00.
Definition u16_supp (lead trail : Z) : Z :=
  Z.shiftl lead 10 + trail - (Z.shiftl 0xd800 10 + 0xdc00 - 0x10000).

(** ustring.cc:50-65 [ustring_to_vec32]: a lead surrogate followed by a trail
    surrogate is one code point, anything else stands for itself. *)
Fixpoint ustring_to_vec32 (s : list Z) : list Z :=
  match s with
  | [] => []
  | u :: r =>
      if u16_is_lead u then
        match r with
        | t :: r' =>
            if u16_is_trail t then u16_supp u t :: ustring_to_vec32 r'
            else u :: ustring_to_vec32 r
        | [] => [u]
        end
      else u :: ustring_to_vec32 r
  end.

(** compression.cc:257-267 [string_write].  [vec.size()] is passed as unsigned int. *)
Definition string_write (s : list Z) : outcome (list Z) :=
  let vec := ustring_to_vec32 s in
  let! n := multibyte_write (to_uint (Z.of_nat (length vec))) in
  let! cs := multibyte_write_list vec in
  Ok (n ++ cs).

(** compression.cc:276-278: the reading loop, appending to [acc]. *)
Fixpoint string_read_loop (n : nat) (inp : list Z) (acc : list Z) : list Z * list Z :=
  match n with
  | O => (acc, inp)
  | S k =>
      let '(c, inp) := multibyte_read inp in
      string_read_loop k inp (append_cp acc c)
  end.

(** compression.cc:269-281 [string_read]. *)
Definition string_read (inp : list Z) : list Z * list Z :=
  let '(limit, inp) := multibyte_read inp in
  string_read_loop (Z.to_nat limit) inp [].

(** A weight.  [WFin m e] is the real number m * 2^e; every finite double is one with
    |m| < 2^53.  NaN is not modelled. *)
Inductive weight : Type :=
| WFin (m e : Z)
| WPInf
| WNInf.

(** C's [frexp] on m * 2^e: number of bits of the significand. *)
Definition nbits (m : Z) : Z := if m =? 0 then 0 else Z.log2 (Z.abs m) + 1.

(** compression.cc:289 [static_cast<int>(0x40000000 * frexp(value,&exp))]: the product
    by a power of two is exact and the conversion truncates toward zero. *)
Definition w_mantissa (m : Z) : Z := Z.quot (m * 2 ^ 30) (2 ^ nbits m).
(** compression.cc:290 the exponent delivered by [frexp] ([frexp(0)] gives 0). *)
Definition w_exponent (m e : Z) : Z := if m =? 0 then 0 else e + nbits m.

(** compression.cc:302-314 and 316-328: one 32-bit word in one or two pieces. *)
Definition long_word_write (w : Z) : outcome (list Z) :=
  if w <? 0x04000000 then multibyte_write w
  else
    let low := to_uint (Z.shiftl w 6) in
    let low := Z.shiftr low 6 in
    let up := Z.shiftr w 26 in
    let up := Z.lor up 0x04000000 in
    let! a := multibyte_write up in
    let! b := multibyte_write low in
    Ok (a ++ b).

(** compression.cc:284-329 [long_multibyte_write].  For infinities the code first
    converts 0x40000000*inf to [int], formally undefined but overwritten at once;
    the model takes the overwritten value. *)
Definition long_multibyte_write (v : weight) : outcome (list Z) :=
  let '(mantissa, exponent) :=
    match v with
    | WFin m e => (to_uint (w_mantissa m), to_uint (w_exponent m e))
    | WPInf => (2 ^ 32 - 1, 2 ^ 32 - 1)
    | WNInf => (2 ^ 32 - 1, 2 ^ 32 - 2)
    end in
  let! a := long_word_write mantissa in
  let! b := long_word_write exponent in
  Ok (a ++ b).

(** compression.cc:386-399 and 400-413. *)
Definition long_word_read (inp : list Z) : Z * list Z :=
  let '(up, inp) := multibyte_read inp in
  if up <? 0x04000000 then (up, inp)
  else
    let up := Z.land up 0x03ffffff in
    let aux := to_uint (Z.shiftl up 26) in
    let '(low, inp) := multibyte_read inp in
    (Z.lor low aux, inp).

(** compression.cc:378-429 [long_multibyte_read].  [ldexp] is modelled exactly:
    overflow to infinity and rounding of subnormals cannot occur on values that were
    written from a double, but on arbitrary bytes they are not modelled. *)
Definition long_multibyte_read (inp : list Z) : weight * list Z :=
  let '(mantissa, inp) := long_word_read inp in
  let '(exponent, inp) := long_word_read inp in
  if (mantissa =? 2 ^ 32 - 1) && (exponent >=? 2 ^ 32 - 2) then
    if exponent =? 2 ^ 32 - 2 then (WNInf, inp) else (WPInf, inp)
  else (WFin (to_int mantissa) (to_int exponent - 30), inp).

(** compression.h:44-66 [write_be]: eight bytes, most significant first
    (boost::endian and fwrite modelled as big-endian byte order). *)
Definition write_be (v : Z) : list Z :=
  [ Z.shiftr v 56 mod 256; Z.shiftr v 48 mod 256; Z.shiftr v 40 mod 256;
    Z.shiftr v 32 mod 256; Z.shiftr v 24 mod 256; Z.shiftr v 16 mod 256;
    Z.shiftr v 8 mod 256; v mod 256 ].

(** compression.h:69-103 [read_be] on a FILE: throws if fewer than eight bytes. *)
Definition read_be (inp : list Z) : outcome (Z * list Z) :=
  match inp with
  | a :: b :: c :: d :: e :: f :: g :: h :: r =>
      Ok (((((((a * 256 + b) * 256 + c) * 256 + d) * 256 + e) * 256 + f) * 256 + g)
            * 256 + h, r)
  | _ => Throw
  end.

(** The outcome of reading a header: [Some features] for the new format, [None] for
    the old one, with the remaining input.  transducer.cc:588-603,
    file_utils.cc:99-112, trans_exe.cc read.  [fgetpos] is assumed to succeed
    (seekable input); [strncmp] on four bytes without NUL is equality. *)
Definition read_header (magic : list Z) (unknown : Z) (inp : list Z)
  : outcome (option Z * list Z) :=
  if list_eq_dec Z.eq_dec (firstn 4 inp) magic then
    let! (features, r) := read_be (skipn 4 inp) in
    if features >=? unknown then Throw else Ok (Some features, r)
  else Ok (None, inp).

(** compression.h:29,36: 'L','T','T','B' and 'L','T','T','D'. *)
Definition HEADER_LTTOOLBOX : list Z := [76; 84; 84; 66].
Definition HEADER_TRANSDUCER : list Z := [76; 84; 84; 68].
(** compression.h:31,38,39. *)
Definition LTF_UNKNOWN : Z := 1.
Definition TDF_WEIGHTS : Z := 1.
Definition TDF_UNKNOWN : Z := 2.
