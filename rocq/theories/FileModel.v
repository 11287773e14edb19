(** Model of the compiled dictionary format: Transducer::write/read
    (lttoolbox/transducer.cc), TransExe::read (trans_exe.cc, node.cc) and
    writeTransducerSet/readTransducerSet (file_utils.cc).  Definitions only.

    Files as in CompressionModel.v.  Weights are those of the file format ([weight]);
    the arcs and final states are as in TransducerModel.v otherwise: states 0..n-1,
    multimaps and maps as lists in iteration order. *)
From Verif Require Import Base CompressionModel AlphabetModel.

Definition farc : Type := (Z * (nat * weight))%type.
Record ftrans := mkF {
  f_initial : nat;
  f_finals : list (nat * weight);
  f_trans : list (list farc)
}.

(** [w != default_weight], transducer.h:41. *)
Definition nondefault (w : weight) : bool :=
  match w with WFin m _ => negb (m =? 0) | _ => true end.

(** transducer.cc:511-525 [weighted]. *)
Definition weighted (t : ftrans) : bool :=
  existsb (fun f => nondefault (snd f)) (f_finals t)
  || existsb (existsb (fun a => nondefault (snd (snd a)))) (f_trans t).

(** transducer.cc:545-548 and 569-572. *)
Definition write_weight (ww : bool) (w : weight) : outcome (list Z) :=
  if ww then long_multibyte_write w else Ok [].

(** transducer.cc:541-550; the difference is converted to unsigned int. *)
Fixpoint write_finals (ww : bool) (base : Z) (l : list (nat * weight)) : outcome (list Z) :=
  match l with
  | [] => Ok []
  | (s, w) :: r =>
      let! a := multibyte_write (to_uint (Z.of_nat s - base)) in
      let! b := write_weight ww w in
      let! c := write_finals ww (Z.of_nat s) r in
      Ok (a ++ b ++ c)
  end.

(** transducer.cc:558-574: the arcs of state [cur]; [n] is the number of states. *)
Fixpoint write_arcs (ww : bool) (decalage n cur tagbase : Z) (l : list farc) : outcome (list Z) :=
  match l with
  | [] => Ok []
  | (tag, (dst, w)) :: r =>
      let d := Z.of_nat dst in
      let! a := multibyte_write (to_uint (tag - tagbase + decalage)) in
      let! b := multibyte_write (to_uint (if d >=? cur then d - cur else d + n - cur)) in
      let! c := write_weight ww w in
      let! e := write_arcs ww decalage n cur tag r in
      Ok (a ++ b ++ c ++ e)
  end.

(** transducer.cc:554-577. *)
Fixpoint write_states (ww : bool) (decalage n cur : Z) (ts : list (list farc)) : outcome (list Z) :=
  match ts with
  | [] => Ok []
  | l :: r =>
      let! a := multibyte_write (to_uint (Z.of_nat (length l))) in
      let! b := write_arcs ww decalage n cur 0 l in
      let! c := write_states ww decalage n (cur + 1) r in
      Ok (a ++ b ++ c)
  end.

(** transducer.cc:527-579 [write]. *)
Definition transducer_write (decalage : Z) (t : ftrans) : outcome (list Z) :=
  let ww := weighted t in
  let h := HEADER_TRANSDUCER ++ write_be (if ww then TDF_WEIGHTS else 0) in
  let! a := multibyte_write (to_uint (Z.of_nat (f_initial t))) in
  let! b := multibyte_write (to_uint (Z.of_nat (length (f_finals t)))) in
  let! c := write_finals ww 0 (f_finals t) in
  let n := Z.of_nat (length (f_trans t)) in
  let! d := multibyte_write (to_uint n) in
  let! e := write_states ww decalage n 0 (f_trans t) in
  Ok (h ++ a ++ b ++ c ++ d ++ e).

(** std::map<int,double>::insert and std::multimap::insert. *)
Fixpoint ffin_insert (s : nat) (w : weight) (l : list (nat * weight)) : list (nat * weight) :=
  match l with
  | [] => [(s, w)]
  | (s', w') :: r =>
      if (s <? s')%nat then (s, w) :: l
      else if (s =? s')%nat then l
      else (s', w') :: ffin_insert s w r
  end.
Fixpoint fmm_insert (a : farc) (l : list farc) : list farc :=
  match l with
  | [] => [a]
  | b :: r => if fst a <? fst b then a :: l else b :: fmm_insert a r
  end.

(** transducer.cc:617-620, 640-643: without weights the last value, which is the
    default, stays. *)
Definition read_weight (rw : bool) (cur : weight) (inp : list Z) : weight * list Z :=
  if rw then long_multibyte_read inp else (cur, inp).

(** transducer.cc:612-624.  Values are below 2^30, so no conversion changes them;
    overflow of [base] on a corrupt file is not modelled. *)
Fixpoint read_finals (rw : bool) (n : nat) (base : Z) (w : weight) (inp : list Z)
    (acc : list (nat * weight)) : list (nat * weight) * weight * list Z :=
  match n with
  | O => (acc, w, inp)
  | S k =>
      let '(d, inp) := multibyte_read inp in
      let base := base + d in
      let '(w, inp) := read_weight rw w inp in
      read_finals rw k base w inp (ffin_insert (Z.to_nat base) w acc)
  end.

(** transducer.cc:636-650: the arcs of state [cur]. *)
Fixpoint read_arcs (rw : bool) (decalage n cur : Z) (k : nat) (tagbase : Z) (w : weight)
    (inp : list Z) (acc : list farc) : list farc * weight * list Z :=
  match k with
  | O => (acc, w, inp)
  | S k =>
      let '(d, inp) := multibyte_read inp in
      let tagbase := tagbase + (d - decalage) in
      let '(v, inp) := multibyte_read inp in
      let state := (cur + v) mod n in
      let '(w, inp) := read_weight rw w inp in
      read_arcs rw decalage n cur k tagbase w inp
        (fmm_insert (tagbase, (Z.to_nat state, w)) acc)
  end.

(** transducer.cc:629-653.  Every state below [n] is created, and no other, because
    targets are taken modulo [n]. *)
Fixpoint read_states (rw : bool) (decalage n cur : Z) (k : nat) (w : weight) (inp : list Z)
  : list (list farc) * list Z :=
  match k with
  | O => ([], inp)
  | S k =>
      let '(m, inp) := multibyte_read inp in
      let '(l, w, inp) := read_arcs rw decalage n cur (Z.to_nat m) 0 w inp [] in
      let '(ls, inp) := read_states rw decalage n (cur + 1) k w inp in
      (l :: ls, inp)
  end.

(** transducer.cc:581-652 [read].  An empty state set leaves [transitions] of the new
    object with its state 0 (constructor, 44-47). *)
Definition transducer_read (decalage : Z) (inp : list Z) : outcome (ftrans * list Z) :=
  let! (features, inp) := read_header HEADER_TRANSDUCER TDF_UNKNOWN inp in
  let rw := match features with Some f => Z.testbit f 0 | None => false end in
  let '(ini, inp) := multibyte_read inp in
  let '(nf, inp) := multibyte_read inp in
  let '(fins, w, inp) := read_finals rw (Z.to_nat nf) 0 (WFin 0 0) inp [] in
  let '(n, inp) := multibyte_read inp in
  let '(ts, inp) := read_states rw decalage n 0 (Z.to_nat n) w inp in
  Ok (mkF (Z.to_nat ini) fins (match ts with [] => [[]] | _ => ts end), inp).

(** * Whole dictionaries *)

(** A compiled dictionary: letters (UTF-16 units), alphabet, sections in the order of
    the map. *)
Definition section_ : Type := (ustr * ftrans)%type.

(** file_utils.cc:80-86. *)
Fixpoint write_sections (l : list section_) : outcome (list Z) :=
  match l with
  | [] => Ok []
  | (name, t) :: r =>
      let! a := string_write name in
      let! b := transducer_write 0 t in
      let! c := write_sections r in
      Ok (a ++ b ++ c)
  end.

(** file_utils.cc:68-87 [writeTransducerSet] with the letters as a string. *)
Definition writeTransducerSet (letters : ustr) (alpha : alphabet) (l : list section_)
  : outcome (list Z) :=
  let h := HEADER_LTTOOLBOX ++ write_be 0 in
  let! a := string_write letters in
  let! b := alphabet_write alpha in
  let! c := multibyte_write (to_uint (Z.of_nat (length l))) in
  let! d := write_sections l in
  Ok (h ++ a ++ b ++ c ++ d).

(** file_utils.cc:89-94 [writeTransducerSet] with the letters as a set of code points:
    UString(begin, end) converts each one to a 16-bit unit. *)
Definition writeTransducerSet_letters (letters : list Z) (alpha : alphabet) (l : list section_)
  : outcome (list Z) :=
  writeTransducerSet (map (fun c => c mod 2 ^ 16) letters) alpha l.

(** std::set<UChar32>::insert on an increasing list. *)
Fixpoint zset_insert (x : Z) (l : list Z) : list Z :=
  match l with
  | [] => [x]
  | y :: r => if x <? y then x :: l else if x =? y then l else y :: zset_insert x r
  end.

(** file_utils.cc:114-116. *)
Fixpoint read_letters (n : nat) (inp : list Z) (acc : list Z) : list Z * list Z :=
  match n with
  | O => (acc, inp)
  | S k =>
      let '(c, inp) := multibyte_read inp in
      read_letters k inp (zset_insert c acc)
  end.

(** file_utils.cc:96-119 [readShared]. *)
Definition readShared (inp : list Z) : outcome (list Z * alphabet * list Z) :=
  let! (_, inp) := read_header HEADER_LTTOOLBOX LTF_UNKNOWN inp in
  let '(n, inp) := multibyte_read inp in
  let '(letters, inp) := read_letters (Z.to_nat n) inp [] in
  let '(alpha, inp) := alphabet_read inp in
  Ok (letters, alpha, inp).

(** trans[name] = t; the map is an association list in insertion order (its iteration
    order does not matter to any reader). *)
Section Sections.
  Context {T : Type}.
  Fixpoint section_set (name : ustr) (t : T) (l : list (ustr * T)) : list (ustr * T) :=
    match l with
    | [] => [(name, t)]
    | (n, u) :: r => if ustr_eq_dec name n then (n, t) :: r else (n, u) :: section_set name t r
    end.
  Fixpoint read_sections (rd : list Z -> outcome (T * list Z)) (n : nat) (inp : list Z)
      (acc : list (ustr * T)) : outcome (list (ustr * T) * list Z) :=
    match n with
    | O => Ok (acc, inp)
    | S k =>
        let '(name, inp) := string_read inp in
        let! (t, inp) := rd inp in
        read_sections rd k inp (section_set name t acc)
    end.
End Sections.

(** file_utils.cc:121-132 [readTransducerSet] into transducers. *)
Definition readTransducerSet (inp : list Z)
  : outcome (list Z * alphabet * list (ustr * ftrans) * list Z) :=
  let! (letters, alpha, inp) := readShared inp in
  let '(n, inp) := multibyte_read inp in
  let! (ts, inp) := read_sections (transducer_read 0) (Z.to_nat n) inp [] in
  Ok (letters, alpha, ts, inp).

(** * The run-time graph *)

(** node.h: a node maps an input symbol to the destinations in the order they were
    added; association list in insertion order (only looked up by key). *)
Definition dest : Type := (Z * (nat * weight))%type.
Definition node : Type := list (Z * list dest).
Record texe := mkTE {
  te_initial : nat;
  te_finals : list (nat * weight);
  te_nodes : list node
}.

(** node.cc:49-82 [addTransition]. *)
Fixpoint addTransition (i : Z) (d : dest) (n : node) : node :=
  match n with
  | [] => [(i, [d])]
  | (j, ds) :: r => if i =? j then (j, ds ++ [d]) :: r else (j, ds) :: addTransition i d r
  end.
(** transitions.find(i), with the empty Dest when missing. *)
Fixpoint node_find (i : Z) (n : node) : list dest :=
  match n with
  | [] => []
  | (j, ds) :: r => if i =? j then ds else node_find i r
  end.

(** trans_exe.cc:128-142: the arcs of node [cur]. *)
Fixpoint te_read_arcs (rw : bool) (alpha : alphabet) (n cur : Z) (k : nat) (tagbase : Z)
    (w : weight) (inp : list Z) (nd : node) : outcome (node * weight * list Z) :=
  match k with
  | O => Ok (nd, w, inp)
  | S k =>
      let '(d, inp) := multibyte_read inp in
      let tagbase := tagbase + d in
      let '(v, inp) := multibyte_read inp in
      let state := (cur + v) mod n in
      let '(w, inp) := read_weight rw w inp in
      let! (i, o) := decode tagbase alpha in
      te_read_arcs rw alpha n cur k tagbase w inp
        (addTransition i (o, (Z.to_nat state, w)) nd)
  end.

(** trans_exe.cc:122-146. *)
Fixpoint te_read_states (rw : bool) (alpha : alphabet) (n cur : Z) (k : nat) (w : weight)
    (inp : list Z) : outcome (list node * list Z) :=
  match k with
  | O => Ok ([], inp)
  | S k =>
      let '(m, inp) := multibyte_read inp in
      let! (nd, w, inp) := te_read_arcs rw alpha n cur (Z.to_nat m) 0 w inp [] in
      let! (nds, inp) := te_read_states rw alpha n (cur + 1) k w inp in
      Ok (nd :: nds, inp)
  end.

(** trans_exe.cc:64-146 [read].  Final states are pointers to nodes; one outside the
    node vector is undefined. *)
Definition te_read (alpha : alphabet) (inp : list Z) : outcome (texe * list Z) :=
  let! (features, inp) := read_header HEADER_TRANSDUCER TDF_UNKNOWN inp in
  let rw := match features with Some f => Z.testbit f 0 | None => false end in
  let '(ini, inp) := multibyte_read inp in
  let '(nf, inp) := multibyte_read inp in
  let '(fins, w, inp) := read_finals rw (Z.to_nat nf) 0 (WFin 0 0) inp [] in
  let '(n, inp) := multibyte_read inp in
  if forallb (fun f => Z.of_nat (fst f) <? n) fins then
    let! (nds, inp) := te_read_states rw alpha n 0 (Z.to_nat n) w inp in
    Ok (mkTE (Z.to_nat ini) fins nds, inp)
  else UB.

(** file_utils.cc:134-145 [readTransducerSet] into run-time graphs. *)
Definition readTransducerSet_exe (inp : list Z)
  : outcome (list Z * alphabet * list (ustr * texe) * list Z) :=
  let! (letters, alpha, inp) := readShared inp in
  let '(n, inp) := multibyte_read inp in
  let! (ts, inp) := read_sections (te_read alpha) (Z.to_nat n) inp [] in
  Ok (letters, alpha, ts, inp).
