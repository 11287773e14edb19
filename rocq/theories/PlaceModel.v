(** What the programs that make a dictionary out of others do to the files named
    (lt_append.cc:38-70, lt_apply_acx.cc:33-49, lt_compose.cc:111-129, lt_invert.cc:32-48,
    lt_restrict.cc:54-118, lt_trim.cc:120-130).  Definitions only.

    All of them open the inputs, then the output, and only then read.  Names are those of regular
    files that may be read and written; the standard streams are in CliModel.  A name is one
    file: links are left out.  If writing itself fails the output is taken to be still empty. *)
From Verif Require Import Base CompressionModel AlphabetModel FileModel.

Definition name_ : Type := list Z.
Definition files : Type := name_ -> option (list Z).
Definition name_dec : forall a b : name_, {a = b} + {a <> b} := list_eq_dec Z.eq_dec.
Definition put (fs : files) (n : name_) (bs : list Z) : files := fun m => if name_dec m n then Some bs else fs m.

(** file_utils.cc:53-66 [openInBinFile]: a file that is not there ends the program *)
Fixpoint open_inputs (fs : files) (ins : list name_) : bool :=
  match ins with
  | [] => true
  | n :: r => match fs n with Some _ => open_inputs fs r | None => false end
  end.
(** file_utils.cc:38-51 [openOutBinFile]: fopen with "wb" empties the file *)
Definition open_output (fs : files) (out : name_) : files := put fs out [].
Definition contents (fs : files) (n : name_) : list Z := match fs n with Some bs => bs | None => [] end.

(** the mains: [work] is what is made of the bytes read *)
Definition run_tool (fs : files) (ins : list name_) (out : name_) (work : list (list Z) -> outcome (list Z))
  : outcome unit * files :=
  if open_inputs fs ins then
    let fs := open_output fs out in
    match work (map (contents fs) ins) with
    | Ok bs => (Ok tt, put fs out bs)
    | Exit => (Exit, fs)
    | Throw => (Throw, fs)
    | UB => (UB, fs)
    | NoFuel => (NoFuel, fs)
    end
  else (Exit, fs).

(** lt_invert.cc:35-44, lt_apply_acx.cc:37-46: an operation on each section, which may add to the
    alphabet *)
Fixpoint each (g : ftrans -> alphabet -> outcome (ftrans * alphabet)) (l : list section_) (a : alphabet)
  : outcome (list section_ * alphabet) :=
  match l with
  | [] => Ok ([], a)
  | (n, t) :: r =>
      let! (t, a) := g t a in
      let! (r, a) := each g r a in
      Ok ((n, t) :: r, a)
  end.
Definition section_work (g : ftrans -> alphabet -> outcome (ftrans * alphabet)) (ins : list (list Z)) : outcome (list Z) :=
  match ins with
  | inp :: _ =>
      let! (letters, a, l, _) := readTransducerSet inp in
      let! (l, a) := each g l a in
      writeTransducerSet_letters letters a l
  | [] => UB
  end.
