(** InputFile (lttoolbox/input_file.cc).  Definitions only.

    A FILE is the list of its remaining bytes and its end-of-file flag, which a read beyond
    the end sets.  [ubuffer] is the list of its used elements, the top first. *)
From Verif Require Import Base CompressionModel.

Definition U_EOF : Z := 65535.
(** ubuffer has 3 elements, input_file.h:28 *)
Definition UBUF : nat := 3.

Record inf := mkI { i_bytes : list Z; i_eof : bool; i_buf : list Z }.
Definition i_size (f : inf) : nat := length (i_bytes f) + length (i_buf f).

(** utf8::utf8to32 of utf8cpp on one whole sequence: it throws on a wrong lead or
    continuation byte, on an overlong form, on surrogates and beyond U+10FFFF. *)
Definition is_cont (b : Z) : bool := Z.land b 192 =? 128.
Definition utf8_decode (l : list Z) : outcome Z :=
  match l with
  | [a] => if a <? 128 then Ok a else Throw
  | [a; b] =>
      if (Z.land a 224 =? 192) && is_cont b then
        let c := Z.land a 31 * 64 + Z.land b 63 in
        if c <? 128 then Throw else Ok c
      else Throw
  | [a; b; d] =>
      if (Z.land a 240 =? 224) && is_cont b && is_cont d then
        let c := Z.land a 15 * 4096 + Z.land b 63 * 64 + Z.land d 63 in
        if (c <? 2048) || ((55296 <=? c) && (c <=? 57343)) then Throw else Ok c
      else Throw
  | [a; b; d; e] =>
      if (Z.land a 248 =? 240) && is_cont b && is_cont d && is_cont e then
        let c := Z.land a 7 * 262144 + Z.land b 63 * 4096 + Z.land d 63 * 64 + Z.land e 63 in
        if (c <? 65536) || (1114111 <? c) then Throw else Ok c
      else Throw
  | _ => Throw
  end.

(** input_file.cc:101-120: the bytes expected after the first *)
Definition extra_bytes (first : Z) : nat :=
  if Z.land first 240 =? 240 then 3
  else if Z.land first 224 =? 224 then 2
  else if Z.land first 192 =? 192 then 1 else 0.

(** input_file.cc:84-125 [internal_read], called with an empty buffer *)
Definition internal_read (f : inf) : outcome inf :=
  if i_eof f then Ok (mkI (i_bytes f) true [U_EOF])
  else
    match i_bytes f with
    | [] => Ok (mkI [] true [U_EOF])
    | first :: r =>
        if first =? 0 then Ok (mkI r false [0])
        else
          let n := extra_bytes first in
          if (length r <? n)%nat then Throw
          else let! c := utf8_decode (first :: firstn n r) in
               Ok (mkI (skipn n r) false [c])
    end.
Definition fill (f : inf) : outcome inf :=
  match i_buf f with [] => internal_read f | _ => Ok f end.

(** input_file.cc:127-150 *)
Definition get (f : inf) : outcome (Z * inf) :=
  let! f := fill f in
  match i_buf f with
  | [] => UB
  | c :: r => Ok (c, mkI (i_bytes f) (i_eof f) r)
  end.
Definition peek (f : inf) : outcome (Z * inf) :=
  let! f := fill f in
  match i_buf f with [] => UB | c :: _ => Ok (c, f) end.
Definition unget (c : Z) (f : inf) : outcome inf :=
  if (length (i_buf f) <? UBUF)%nat then Ok (mkI (i_bytes f) (i_eof f) (c :: i_buf f)) else UB.
(** input_file.cc:152-156, for an open file *)
Definition eof (f : inf) : bool := i_eof f.
(** A file just opened *)
Definition open_file (bytes : list Z) : inf := mkI bytes false [].
(** input_file.cc:158-167: fseek clears the flag; the buffer stays *)
Definition rewind (bytes : list Z) (f : inf) : inf := mkI bytes false (i_buf f).

(** input_file.cc:169-186 [readBlock]; [append_cp] is ustring.h:72-80 *)
Fixpoint block_loop (fuel : nat) (c end_ : Z) (f : inf) (ret : list Z) : outcome (list Z * inf) :=
  if (c =? end_) || eof f then Ok (ret, f)
  else
    match fuel with
    | O => NoFuel
    | S fuel =>
        let! (c, f) := get f in
        if c =? 0 then Ok (ret, f)
        else
          let ret := append_cp ret c in
          if c =? 92 then
            let! (d, f) := get f in
            block_loop fuel c end_ f (append_cp ret d)
          else block_loop fuel c end_ f ret
    end.
Definition readBlock (start end_ : Z) (f : inf) : outcome (list Z * inf) :=
  block_loop (2 + i_size f) 0 end_ f (append_cp [] start).

(** input_file.cc:188-209 [finishWBlank] *)
Fixpoint wblank_loop (fuel : nat) (f : inf) (ret : list Z) : outcome (list Z * inf) :=
  if eof f then Ok (ret, f)
  else
    match fuel with
    | O => NoFuel
    | S fuel =>
        let! (c, f) := get f in
        if c =? 0 then Ok (ret, f)
        else
          let ret := append_cp ret c in
          if c =? 92 then
            let! (d, f) := get f in
            wblank_loop fuel f (append_cp ret d)
          else if c =? 93 then
            let! (p, f) := peek f in
            if p =? 93 then
              let! (d, f) := get f in Ok (append_cp ret d, f)
            else wblank_loop fuel f ret
          else wblank_loop fuel f ret
    end.
Definition finishWBlank (f : inf) : outcome (list Z * inf) :=
  wblank_loop (2 + i_size f) f [91; 91].

(** input_file.cc:211-247 [readBlank] *)
Fixpoint blank_loop (fuel : nat) (readwblank : bool) (f : inf) (ret : list Z)
  : outcome (list Z * inf) :=
  if eof f then Ok (ret, f)
  else
    match fuel with
    | O => NoFuel
    | S fuel =>
        let! (c, f) := get f in
        if (c =? 94) || (c =? 0) || (c =? U_EOF) then
          let! f := unget c f in Ok (ret, f)
        else if c =? 91 then
          let! (c2, f) := get f in
          if c2 =? 91 then
            if readwblank then
              let! (w, f) := finishWBlank f in
              blank_loop fuel readwblank f (ret ++ w)
            else
              let! f := unget c2 f in
              let! f := unget c f in
              Ok (ret, f)
          else
            let! f := unget c2 f in
            let! (b, f) := readBlock c 93 f in
            blank_loop fuel readwblank f (ret ++ b)
        else
          let ret := append_cp ret c in
          if c =? 92 then
            if eof f then Exit
            else
              let! (p, f) := peek f in
              if p =? 0 then Exit
              else
                let! (d, f) := get f in
                blank_loop fuel readwblank f (append_cp ret d)
          else blank_loop fuel readwblank f ret
    end.
Definition readBlank (readwblank : bool) (f : inf) : outcome (list Z * inf) :=
  blank_loop (2 + i_size f) readwblank f [].

(** A program reading a file *)
Inductive iop := IGet | IPeek | IUnget (c : Z) | IEof.
Inductive iobs := IChar (c : Z) | IFlag (b : bool) | INone.
Definition iexec (f : inf) (op : iop) : outcome (iobs * inf) :=
  match op with
  | IGet => let! (c, f) := get f in Ok (IChar c, f)
  | IPeek => let! (c, f) := peek f in Ok (IChar c, f)
  | IUnget c => let! f := unget c f in Ok (INone, f)
  | IEof => Ok (IFlag (eof f), f)
  end.
Fixpoint irun (f : inf) (ops : list iop) : outcome (list iobs) :=
  match ops with
  | [] => Ok []
  | op :: r =>
      let! (o, f) := iexec f op in
      let! l := irun f r in
      Ok (o :: l)
  end.
