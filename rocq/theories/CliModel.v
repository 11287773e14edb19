(** The command line (lttoolbox/cli.cc, lt_proc.cc:35-172, lt_merge.cc, file_utils.cc:23-66).
    Definitions only.

    Arguments are lists of bytes.  getopt_long is a function of the C library; [scan] and
    [cluster] follow glibc 2.36 posix/getopt.c as it is called by cli.cc:143, with POSIXLY_CORRECT
    unset.  Instead of moving the operands to the end of argv they are collected.  The
    descriptions of options and the text of the usage message are left out. *)
From Verif Require Import Base GenerationModel.

Definition arg := list Z.
Definition arg_eqb (a b : arg) : bool := if list_eq_dec Z.eq_dec a b then true else false.

(** cli.h:25-31 [CLIOption]; no program has an option ':', ';', '?', '+' or '-', to which
    getopt gives a meaning of their own *)
Record copt := mkOpt { short : Z; long : arg; is_bool : bool }.

(** cli.h:40-42: what has been read; [bools] has the names that are true, [strs] the vectors *)
Record taken := mkTaken { bools : list arg; strs : list (arg * list arg); operands : list arg }.
(** the ways parse_args ends: it returns, prints the version and exits with success, or prints
    the usage on the standard output ([true]) or the error output and exits with failure *)
Inductive reply := Parsed (t : taken) | Version | Usage (out : bool).

(** strs[it.long_opt].push_back(optarg), cli.cc:160 *)
Fixpoint push (n v : arg) (m : list (arg * list arg)) : list (arg * list arg) :=
  match m with
  | [] => [(n, [v])]
  | (n', l) :: r => if arg_eqb n n' then (n', l ++ [v]) :: r else (n', l) :: push n v r
  end.
Fixpoint by_short (c : Z) (os : list copt) : option copt :=
  match os with
  | [] => None
  | o :: r => if short o =? c then Some o else by_short c r
  end.
Definition version_name : arg := [118; 101; 114; 115; 105; 111; 110].

(** cli.cc:147-171: one answer of getopt_long, [v] is optarg; the first option with that
    letter counts.  Result: the answer, or how the program ends *)
Definition answer (os : list copt) (c : Z) (v : arg) (t : taken) : taken + reply :=
  match by_short c os with
  | None => inr (Usage false)
  | Some o =>
      if (short o =? 118) && arg_eqb (long o) version_name then inr Version
      else
        let t := if is_bool o then mkTaken (long o :: bools t) (strs t) (operands t)
                 else mkTaken (bools t) (push (long o) v (strs t)) (operands t) in
        if c =? 104 then inr (Usage true) else inl t
  end.

(** getopt.c [_getopt_internal_r], the letters of one argument; the result is the options
    taken, and the letter of an option that takes the next argument, if there is one *)
Fixpoint cluster (os : list copt) (cs : arg) (t : taken) : (taken * option Z) + reply :=
  match cs with
  | [] => inl (t, None)
  | c :: r =>
      match by_short c os with
      | None => inr (Usage false)
      | Some o =>
          if is_bool o then
            match answer os c [] t with inl t => cluster os r t | inr e => inr e end
          else
            match r with
            | [] => inl (t, Some c)
            | _ => match answer os c r t with inl t => inl (t, None) | inr e => inr e end
            end
      end
  end.
(** getopt.c [process_long_option]: the name up to '=' and what follows *)
Fixpoint to_equals (a : arg) : arg * option arg :=
  match a with
  | [] => ([], None)
  | c :: r => if c =? 61 then ([], Some r) else let '(n, v) := to_equals r in (c :: n, v)
  end.
Fixpoint by_long (n : arg) (os : list copt) : option copt :=
  match os with
  | [] => None
  | o :: r => if arg_eqb n (long o) then Some o else by_long n r
  end.
Definition is_operand (a : arg) : bool := match a with 45 :: _ :: _ => false | _ => true end.
Definition operand (a : arg) (t : taken) : taken := mkTaken (bools t) (strs t) (operands t ++ [a]).

(** cli.cc:140-174 with getopt_long.  The vector of long options (cli.cc:127, 133-138) has no
    element of zeros at its end, so a name that is none of them is compared with what lies
    behind it; an empty vector is a null pointer, for which "--x" is a list of letters. *)
Fixpoint scan (os : list copt) (args : list arg) (t : taken) : outcome reply :=
  match args with
  | [] => Ok (Parsed t)
  | a :: rest =>
      let with_next c (t : taken) :=
        match rest with
        | [] => Ok (Usage false)
        | v :: rest => match answer os c v t with inl t => scan os rest t | inr e => Ok e end
        end in
      if is_operand a then scan os rest (operand a t)
      else
        match a with
        | [45; 45] => Ok (Parsed (mkTaken (bools t) (strs t) (operands t ++ rest)))
        | 45 :: 45 :: name =>
            match os with
            | [] => Ok (Usage false)
            | _ =>
                let '(n, v) := to_equals name in
                match by_long n os with
                | None => UB
                | Some o =>
                    match is_bool o, v with
                    | true, Some _ => Ok (Usage false)
                    | true, None => match answer os (short o) [] t with inl t => scan os rest t | inr e => Ok e end
                    | false, Some v => match answer os (short o) v t with inl t => scan os rest t | inr e => Ok e end
                    | false, None => with_next (short o) t
                    end
                end
            end
        | _ =>
            match cluster os (tl a) t with
            | inl (t, None) => scan os rest t
            | inl (t, Some c) => with_next c t
            | inr e => Ok e
            end
        end
  end.

(** cli.cc:122-181 [parse_args]; [fs] says of each file argument whether it is optional
    (cli.cc:55-59), [args] is argv without argv[0] *)
Definition min_file_args (fs : list bool) : nat := length (filter negb fs).
Definition parse_args (os : list copt) (fs : list bool) (args : list arg) : outcome reply :=
  let! r := scan os args (mkTaken [] [] []) in
  match r with
  | Parsed t =>
      let n := length (operands t) in
      if (n <? min_file_args fs)%nat || (length fs <? n)%nat then Ok (Usage false)
      else Ok (Parsed (mkTaken (bools t) (strs t) (operands t ++ repeat [] (length fs - n))))
  | e => Ok e
  end.

(** bools["x"] and strs["x"], an empty vector if there is none *)
Definition is_set (n : arg) (t : taken) : bool := existsb (arg_eqb n) (bools t).
Fixpoint find_strs (n : arg) (m : list (arg * list arg)) : list arg :=
  match m with
  | [] => []
  | (n', l) :: r => if arg_eqb n n' then l else find_strs n r
  end.
Definition file_at (n : nat) (t : taken) : arg := nth n (operands t) [].

(** * The options of the programs *)
From Coq Require String Ascii.
Import String.StringSyntax.
Definition str (s : String.string) : arg :=
  map (fun c => Z.of_N (Ascii.N_of_ascii c)) (String.list_ascii_of_string s).
Delimit Scope string_scope with string.
Arguments str _%string.
Definition B (c : Z) (n : String.string) : copt := mkOpt c (str n) true.
Definition S_ (c : Z) (n : String.string) : copt := mkOpt c (str n) false.
Arguments B _ _%string.
Arguments S_ _ _%string.
(** lt_proc.cc:35-64 *)
Definition proc_opts : list copt :=
  [B 97 "analysis"; B 98 "bilingual"; B 99 "case-sensitive"; B 100 "debugged-gen";
   B 101 "decompose-nouns"; B 103 "generation"; S_ 105 "ignored-chars"; S_ 114 "restore-chars";
   B 108 "tagged-gen"; B 109 "tagged-nm-gen"; B 110 "non-marked-gen"; B 111 "surf-bilingual";
   B 79 "surf-bilingual-keep"; B 112 "post-generation"; B 120 "inter-generation"; B 115 "sao";
   B 116 "transliteration"; B 118 "version"; B 122 "null-flush"; B 119 "dictionary-case";
   B 67 "careful-case"; B 73 "no-default-ignore"; B 87 "show-weights"; S_ 78 "analyses";
   S_ 76 "weight-classes"; S_ 77 "compound-max-elements"; B 104 "help"].
Definition proc_files := [false; true; true].
(** lt_comp.cc:39-53 *)
Definition comp_opts : list copt :=
  [B 100 "debug"; B 109 "keep-boundaries"; S_ 118 "var"; S_ 97 "alt"; S_ 108 "var-left";
   S_ 114 "var-right"; B 72 "hfst"; B 83 "no-split"; B 106 "jobs"; B 86 "verbose"; B 104 "help"].
Definition comp_files := [false; false; false; true].
(** lt_expand.cc:27-33 *)
Definition expand_opts : list copt :=
  [B 109 "keep-boundaries"; S_ 118 "var"; S_ 97 "alt"; S_ 108 "var-left"; S_ 114 "var-right"].
Definition expand_files := [false; true].
(** lt_merge.cc:28-32 *)
Definition merge_opts : list copt := [B 117 "unmerge"; B 122 "null-flush"; B 104 "help"].
Definition merge_files := [true; true].
(** lt_append.cc:27-32, lt_compose.cc:104-108, lt_invert.cc:27-29, lt_paradigm.cc:147-154,
    lt_print.cc:26-30, lt_restrict.cc:41-48, lt_tmxproc.cc:26-30, lt_trim.cc:107-110 and
    lt_apply_acx.cc:28-30, which has no options *)
Definition append_opts : list copt := [B 107 "keep"; B 115 "single"; B 104 "help"].
Definition compose_opts : list copt := [B 105 "inverted"; B 97 "anywhere"].
Definition invert_opts : list copt := [B 104 "help"].
Definition paradigm_opts : list copt :=
  [B 97 "analyser"; S_ 101 "exclude"; B 115 "sort"; B 122 "null-flush"; B 104 "help"].
Definition print_opts : list copt := [B 97 "alpha"; B 72 "hfst"; B 104 "help"].
Definition restrict_opts : list copt :=
  [B 109 "minimise"; S_ 118 "var"; S_ 97 "alt"; S_ 108 "var-left"; S_ 114 "var-right"].
Definition tmxproc_opts : list copt := [B 115 "space"; B 122 "null-flush"].
Definition trim_opts : list copt := [S_ 115 "match-section"].
Definition acx_opts : list copt := [].

(** * lt-proc *)
(** atoi, a function of the C library: spaces, a sign, digits.  A number that is no int is
    undefined behaviour. *)
Definition c_space (c : Z) : bool := (c =? 32) || ((9 <=? c) && (c <=? 13)).
Fixpoint skip_spaces (a : arg) : arg :=
  match a with c :: r => if c_space c then skip_spaces r else a | [] => [] end.
Fixpoint digits (a : arg) (n : Z) : Z :=
  match a with
  | c :: r => if (48 <=? c) && (c <=? 57) then digits r (10 * n + (c - 48)) else n
  | [] => n
  end.
Definition atoi (a : arg) : outcome Z :=
  let n := match skip_spaces a with
           | 45 :: r => - digits r 0
           | 43 :: r => digits r 0
           | r => digits r 0
           end in
  if (- 2 ^ 31 <=? n) && (n <? 2 ^ 31) then Ok n else UB.
(** lt_proc.cc:152-175: one of the three limits; the last value counts *)
Definition limit (n : arg) (t : taken) : outcome (option Z) :=
  match find_strs n (strs t) with
  | [] => Ok None
  | l => let! k := atoi (last l []) in if k <? 1 then Exit else Ok (Some k)
  end.

(** what lt-proc is going to do: the letter of its command, mode, surface forms (and kept), the switches of
    132-136, the files of characters, the three limits, and the three files *)
Record job := mkJob {
  j_cmd : Z; j_mode : gmode; j_surface : bool; j_keep : bool;
  j_case : bool; j_default : bool; j_weights : bool; j_flush : bool; j_dictcase : bool;
  j_icx : list arg; j_rcx : list arg;
  j_analyses : option Z; j_classes : option Z; j_elements : option Z;
  j_fst : arg; j_in : arg; j_out : arg
}.
(** lt_proc.cc:71-108; the arguments are the options -a, -b, -o, -O, -g, -e, -p, -x, -t and -s;
    [None] is print_usage *)
Definition clash (cmd : Z) (yes : bool) (ok_b : bool) : bool :=
  yes && negb (cmd =? 0) && negb (ok_b && (cmd =? 98)).
Definition main_of (a b o O g e p x t s : bool) : option (Z * gmode) :=
  let cmd := if a then 97 else 0 in
  if clash cmd b false then None else
  let cmd := if b then 98 else cmd in
  if clash cmd o true then None else
  let cmd := if o && (cmd =? 0) then 98 else cmd in
  if clash cmd O true then None else
  let cmd := if O && (cmd =? 0) then 98 else cmd in
  if clash cmd g true then None else
  let mode := if g && (cmd =? 98) then gm_bilgen else gm_unknown in
  let cmd := if g && (cmd =? 0) then 103 else cmd in
  if clash cmd e false then None else
  let cmd := if e then 101 else cmd in
  if clash cmd p false then None else
  let cmd := if p then 112 else cmd in
  if clash cmd (x || t) false then None else
  let cmd := if x || t then 116 else cmd in
  if clash cmd s false then None else
  let cmd := if s then 115 else cmd in
  Some (cmd, mode).
(** lt_proc.cc:110-130: -d, -l, -m, -n and -C *)
Definition kind_of (d l m n c : bool) (x : Z * gmode) : Z * gmode :=
  let variant (b : bool) md (x : Z * gmode) := if b then ((if fst x =? 0 then 103 else fst x), md) else x in
  variant c gm_carefulcase (variant n gm_clean (variant m gm_tagged_nm (variant l gm_tagged (variant d gm_all x)))).
(** lt_proc.cc:67-130 *)
Definition choose (t : taken) : option (Z * gmode) :=
  let on (n : arg) := is_set n t in
  match main_of (on (str "analysis")) (on (str "bilingual")) (on (str "surf-bilingual")) (on (str "surf-bilingual-keep"))
          (on (str "generation")) (on (str "decompose-nouns")) (on (str "post-generation"))
          (on (str "inter-generation")) (on (str "transliteration")) (on (str "sao")) with
  | None => None
  | Some x => Some (kind_of (on (str "debugged-gen")) (on (str "tagged-gen")) (on (str "tagged-nm-gen"))
                      (on (str "non-marked-gen")) (on (str "careful-case")) x)
  end.
(** lt_proc.cc:132-136, 138-176, 177-185 *)
Definition proc_job (t : taken) : outcome (option job) :=
  match choose t with
  | None => Ok None
  | Some (cmd, mode) =>
      let on (n : arg) := is_set n t in
      let! n := limit (str "analyses") t in
      let! l := limit (str "weight-classes") t in
      let! m := limit (str "compound-max-elements") t in
      let rcx := find_strs (str "restore-chars") (strs t) in
      Ok (Some (mkJob cmd mode (on (str "surf-bilingual")) (on (str "surf-bilingual-keep"))
                  (on (str "case-sensitive"))
                  (match rcx with [] => negb (on (str "no-default-ignore")) | _ => false end)
                  (on (str "show-weights")) (on (str "null-flush")) (on (str "dictionary-case"))
                  (find_strs (str "ignored-chars") (strs t)) rcx n l m
                  (file_at 0 t) (file_at 1 t) (file_at 2 t)))
  end.
(** lt_proc.cc:189-241: the switch; the mode is used by generation and lexical transfer only *)
Inductive task :=
| Analyses | Decomposes | Generates (m : gmode) | Postgenerates | Annotates | Transliterates | Transfers (m : gmode).
Definition task_of (j : job) : task :=
  if j_cmd j =? 103 then Generates (j_mode j)
  else if j_cmd j =? 112 then Postgenerates
  else if j_cmd j =? 115 then Annotates
  else if j_cmd j =? 116 then Transliterates
  else if j_cmd j =? 98 then Transfers (j_mode j)
  else if j_cmd j =? 101 then Decomposes
  else Analyses.
(** lt_proc.cc:35-176 *)
Inductive begun := Runs (j : job) | Stops (r : reply).
Definition lt_proc_begin (args : list arg) : outcome begun :=
  let! r := parse_args proc_opts proc_files args in
  match r with
  | Parsed t => let! j := proc_job t in
                match j with Some j => Ok (Runs j) | None => Ok (Stops (Usage false)) end
  | e => Ok (Stops e)
  end.

(** * Streams *)
(** input_file.cc:26-64: a stream opened without a name is the standard input *)
Inductive stream := Std | Named (n : arg).
(** lt_proc.cc:181-184, lt_tmxproc.cc:45-48, lt_paradigm.cc:189-192 *)
Definition text_in (f : arg) : stream := match f with [] => Std | _ => Named f end.
(** file_utils.cc:23-66 [openOutTextFile], [openOutBinFile], [openInBinFile] *)
Definition bin_or_out (f : arg) : stream :=
  match f with [] => Std | [45] => Std | _ => Named f end.
(** lt_proc.cc:177, 181-185: the streams of the dictionary, the text and the output *)
Definition proc_streams (j : job) : stream * stream * stream :=
  (bin_or_out (j_fst j), text_in (j_in j), bin_or_out (j_out j)).
(** lt_merge.cc:26-41: whether it is undone, the streams read and written *)
Definition lt_merge_begin (args : list arg) : outcome (reply + (bool * stream * stream)) :=
  let! r := parse_args merge_opts merge_files args in
  match r with
  | Parsed t =>
      Ok (inr (is_set (str "unmerge") t,
               (match file_at 1 t with [] => Std | _ => Named (file_at 0 t) end),
               bin_or_out (file_at 1 t)))
  | e => Ok (inl e)
  end.
