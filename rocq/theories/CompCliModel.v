(** The decisions of lt-comp (lttoolbox/lt_comp.cc:35-181) and lt-tmxcomp (lt_tmxcomp.cc:48-115)
    between the command line and the compilers.  Definitions only.

    The compilers themselves are CompilerModel.v, AttModel.v and TmxModel.v.  What libxml2 finds
    at the beginning of the dictionary is an argument of the model, and so are the two variables
    of the environment. *)
From Verif Require Import Base GenerationModel CliModel.
From Coq Require String Ascii.
Import String.StringSyntax.

(** * lt-comp *)
(** lt_comp.cc:103-122: no reader; the first node is read; it is not (AT&T format) *)
Inductive beginning := NoFile | Markup | NoMarkup.
Inductive restriction := LR | RL | U.
(** what is compiled: a dictionary, after equivalent characters if there are any, or a text in
    AT&T format, reversed or not *)
Inductive source := Dix (r : restriction) (acx : option arg) | Att (reversed : bool).
Record build := mkBuild {
  b_source : source;
  b_var : option arg; b_alt : option arg; b_left : option arg; b_right : option arg;
  b_debug : bool; b_boundaries : bool; b_verbose : bool; b_hfst : bool; b_split : bool;
  b_jobs : bool; b_max : Z; b_in : arg; b_out : stream
}.
(** args["x"][0] if "x" is found, lt_comp.cc:63-76 *)
Definition first_value (n : arg) (t : taken) : option arg := hd_error (find_strs n (strs t)).
(** std::stol, a function of the C++ library: no digits or a number that is no long throw *)
Definition number_begins (a : arg) : bool :=
  match a with c :: _ => (48 <=? c) && (c <=? 57) | [] => false end.
Definition stol (a : arg) : outcome Z :=
  let '(sign, r) := match skip_spaces a with 45 :: r => (-1, r) | 43 :: r => (1, r) | r => (1, r) end in
  if number_begins r then
    let n := sign * digits r 0 in if (- 2 ^ 63 <=? n) && (n <? 2 ^ 63) then Ok n else Throw
  else Throw.
(** lt_comp.cc:85-86: LT_JOBS[0] of an empty value is 0 *)
Definition jobs_wanted (flag : bool) (lt_jobs : option arg) : bool :=
  flag || match lt_jobs with None => false | Some v => negb (hd 0 v =? 110) end.
(** lt_comp.cc:85-96; the parameter is a size_t (compiler.h:404) *)
Definition max_entries (jobs : bool) (lt_max : option arg) : outcome Z :=
  match lt_max with
  | None => Ok (if jobs then 50000 else 0)
  | Some v => let! n := stol v in Ok (n mod 2 ^ 64)
  end.
(** lt_comp.cc:125-170; [None] is print_usage *)
Definition source_of (att have_left have_right : bool) (opc acx : arg) : option source :=
  if arg_eqb opc (str "lr") then
    if have_left then None
    else Some (if att then Att false else Dix LR (match acx with [] => None | _ => Some acx end))
  else if arg_eqb opc (str "rl") then
    if have_right then None
    else Some (if att then Att true else Dix RL None)
  else if arg_eqb opc (str "u") then
    Some (if att then Att false else Dix U None)
  else None.
(** lt_comp.cc:54-171 *)
Definition present (v : option arg) : bool := match v with Some _ => true | None => false end.
Definition comp_build (look : arg -> beginning) (lt_jobs lt_max : option arg) (t : taken) : outcome (reply + build) :=
  let left := first_value (str "var-left") t in
  let right := first_value (str "var-right") t in
  let jobs := jobs_wanted (is_set (str "jobs") t) lt_jobs in
  let! max := max_entries jobs lt_max in
  let go (att : bool) :=
    match source_of att (present left) (present right) (file_at 0 t) (file_at 3 t) with
    | None => Ok (inl (Usage false))
    | Some s =>
        Ok (inr (mkBuild s (first_value (str "var") t) (first_value (str "alt") t) left right
          (is_set (str "debug") t) (is_set (str "keep-boundaries") t) (is_set (str "verbose") t)
          (is_set (str "hfst") t) (negb (is_set (str "no-split") t)) jobs max (file_at 1 t) (bin_or_out (file_at 2 t))))
    end in
  match look (file_at 1 t) with
  | NoFile => Exit
  | Markup => go false
  | NoMarkup => go true
  end.
(** lt_comp.cc:35-181 *)
Definition lt_comp_begin (look : arg -> beginning) (lt_jobs lt_max : option arg) (args : list arg) : outcome (reply + build) :=
  let! r := parse_args comp_opts comp_files args in
  match r with Parsed t => comp_build look lt_jobs lt_max t | e => Ok (inl e) end.

(** * lt-tmxcomp *)
(** lt_tmxcomp.cc:65-70: two options with a value each *)
Definition tmx_origin : arg := str "origin-code".
Definition tmx_meta : arg := str "meta-code".
Definition is_prefix (p a : arg) : bool := arg_eqb p (firstn (length p) a).
(** getopt.c [process_long_option] for these two: a name may be cut short, the empty name is
    ambiguous *)
Definition tmx_long (n : arg) : option Z :=
  match n with
  | [] => None
  | _ => if is_prefix n tmx_origin then Some 111 else if is_prefix n tmx_meta then Some 109 else None
  end.
(** One argument that is an option: its letter, and its value unless that is the next argument. *)
Definition tmx_option (a : arg) : option (Z * option arg) :=
  match a with
  | 45 :: 45 :: name =>
      let '(n, v) := to_equals name in
      match tmx_long n with Some c => Some (c, v) | None => None end
  | 45 :: c :: v =>
      if (c =? 111) || (c =? 109) then Some (c, match v with [] => None | _ => Some v end) else None
  | _ => None
  end.
(** lt_tmxcomp.cc:62-95 with getopt_long: the codes set, the options, in order, and the
    operands, which getopt moves behind the options; [None] is endProgram *)
Fixpoint tmx_scan (args : list arg) (codes : list (Z * arg)) (opts ops : list arg)
  : option (list (Z * arg) * list arg * list arg) :=
  match args with
  | [] => Some (codes, opts, ops)
  | a :: rest =>
      if is_operand a then tmx_scan rest codes opts (ops ++ [a])
      else if arg_eqb a [45; 45] then Some (codes, opts ++ [a], ops ++ rest)
      else
        match tmx_option a with
        | None => None
        | Some (c, Some v) => tmx_scan rest (codes ++ [(c, v)]) (opts ++ [a]) ops
        | Some (c, None) =>
            match rest with
            | [] => None
            | v :: rest => tmx_scan rest (codes ++ [(c, v)]) (opts ++ [a; v]) ops
            end
        end
  end.
(** UString::find('-') and substr, lt_tmxcomp.cc:97-99: without a '-' the position is npos,
    and npos + 1 is 0 *)
Fixpoint to_hyphen (a : arg) : arg * option arg :=
  match a with
  | [] => ([], None)
  | c :: r => if c =? 45 then ([], Some r) else let '(n, v) := to_hyphen r in (c :: n, v)
  end.
Definition languages (opc : arg) : arg * arg :=
  match to_hyphen opc with (a, Some b) => (a, b) | (a, None) => (opc, opc) end.
(** lt_tmxcomp.cc:48-115: the codes, the languages, the memory and the output; the arguments are
    argv without argv[0].  The first argument is taken as text already. *)
Record memory := mkMemory { m_codes : list (Z * arg); m_from : arg; m_to : arg; m_in : arg; m_out : arg }.
Definition lt_tmxcomp_begin (args : list arg) : option memory :=
  if negb (length args =? 3)%nat then None
  else
    match tmx_scan args [] [] [] with
    | None => None
    | Some (codes, opts, ops) =>
        let argv := opts ++ ops in
        let '(lo, lm) := languages (nth 0 argv []) in
        match lo, lm with
        | _ :: _, _ :: _ => Some (mkMemory codes lo lm (nth 1 argv []) (nth 2 argv []))
        | _, _ => None
        end
    end.
