(** What a command line says, by the conventions of getopt_long; independent of CliModel.v but
    for the records of options. *)
From Verif Require Import Base GenerationModel CliModel.
From Coq Require String Ascii.
Import String.StringSyntax.

(** the letters and names tell the options apart *)
Definition table_ok (os : list copt) : Prop :=
  NoDup (map short os) /\ NoDup (map long os) /\
  Forall (fun o => short o <> 45 /\ long o <> [] /\ ~ In 61 (long o)) os.

Inductive wish := Flag (o : copt) | Value (o : copt) (v : arg) | Operand (x : arg).
Section Line.
  Context (os : list copt).
  Definition flag (o : copt) : Prop := In o os /\ is_bool o = true.
  Definition valued (o : copt) : Prop := In o os /\ is_bool o = false.
  (** letters of options without a value *)
  Inductive flags : arg -> list wish -> Prop :=
  | fl_none : flags [] []
  | fl_one o cs ws : flag o -> flags cs ws -> flags (short o :: cs) (Flag o :: ws).
  (** one or two arguments that belong together: x, --flag, --name=value, --name value, -abc,
      -abcVALUE, -abc VALUE *)
  Inductive item : list arg -> list wish -> Prop :=
  | it_operand x : x = [] \/ x = [45] \/ hd 0 x <> 45 -> item [x] [Operand x]
  | it_long o : flag o -> item [[45; 45] ++ long o] [Flag o]
  | it_long_eq o v : valued o -> item [[45; 45] ++ long o ++ [61] ++ v] [Value o v]
  | it_long_next o v : valued o -> item [[45; 45] ++ long o; v] [Value o v]
  | it_flags cs ws : cs <> [] -> flags cs ws -> item [[45] ++ cs] ws
  | it_value cs ws o v : flags cs ws -> valued o -> v <> [] ->
      item [[45] ++ cs ++ [short o] ++ v] (ws ++ [Value o v])
  | it_value_next cs ws o v : flags cs ws -> valued o ->
      item [[45] ++ cs ++ [short o]; v] (ws ++ [Value o v]).
  Inductive items : list arg -> list wish -> Prop :=
  | is_none : items [] []
  | is_more a b ws vs : item a ws -> items b vs -> items (a ++ b) (ws ++ vs).
  (** a command line: items, then perhaps "--" and operands *)
  Inductive line : list arg -> list wish -> Prop :=
  | ln_plain a ws : items a ws -> line a ws
  | ln_dashes a ws l : items a ws -> line (a ++ [[45; 45]] ++ l) (ws ++ map Operand l).

  (** arguments that are no such thing: an unknown letter, a value missing at the end, a value
      for an option that takes none *)
  Inductive wrong : list arg -> list wish -> Prop :=
  | wr_letter cs ws c x rest : flags cs ws -> ~ In c (map short os) -> cs <> [] \/ c <> 45 ->
      wrong (([45] ++ cs ++ [c] ++ x) :: rest) ws
  | wr_missing cs ws o : flags cs ws -> valued o -> wrong [[45] ++ cs ++ [short o]] ws
  | wr_missing_long o : valued o -> wrong [[45; 45] ++ long o] []
  | wr_extra o v rest : flag o -> wrong (([45; 45] ++ long o ++ [61] ++ v) :: rest) [].
End Line.

(** options that end the program at once: -h, and -v if its name is "version" *)
Inductive ends : copt -> reply -> Prop :=
| ends_version o : short o = 118 -> long o = str "version" -> ends o Version
| ends_help o : short o = 104 -> ends o (Usage true).
Definition wish_ends (w : wish) (r : reply) : Prop :=
  match w with Flag o | Value o _ => ends o r | Operand _ => False end.
Definition calm (ws : list wish) : Prop := Forall (fun w => forall r, ~ wish_ends w r) ws.

(** what is wished *)
Fixpoint wished_files (ws : list wish) : list arg :=
  match ws with
  | [] => []
  | Operand x :: r => x :: wished_files r
  | _ :: r => wished_files r
  end.
Inductive wished_values (o : copt) : list wish -> list arg -> Prop :=
| wv_none : wished_values o [] []
| wv_one v ws l : wished_values o ws l -> wished_values o (Value o v :: ws) (v :: l)
| wv_other w ws l : (forall v, w <> Value o v) -> wished_values o ws l -> wished_values o (w :: ws) l.
Definition required (fs : list bool) : nat := count_occ Bool.bool_dec fs false.

(** * lt-proc *)
(** commands, and the options that ask for them *)
Inductive command := Analysis | Transfer | Generation | Decomposition | Postgeneration | Transliteration | Annotation.
Inductive asks : copt -> command -> Prop :=
| as_a : asks (B 97 "analysis") Analysis
| as_b : asks (B 98 "bilingual") Transfer
| as_o : asks (B 111 "surf-bilingual") Transfer
| as_O : asks (B 79 "surf-bilingual-keep") Transfer
| as_g : asks (B 103 "generation") Generation
| as_e : asks (B 101 "decompose-nouns") Decomposition
| as_p : asks (B 112 "post-generation") Postgeneration
| as_x : asks (B 120 "inter-generation") Transliteration
| as_t : asks (B 116 "transliteration") Transliteration
| as_s : asks (B 115 "sao") Annotation.
Definition asked (ws : list wish) (c : command) : Prop := exists o, In (Flag o) ws /\ asks o c.
(** the kinds of generation, the stronger ones first *)
Definition kinds : list (copt * gmode) :=
  [(B 67 "careful-case", gm_carefulcase); (B 110 "non-marked-gen", gm_clean);
   (B 109 "tagged-nm-gen", gm_tagged_nm); (B 108 "tagged-gen", gm_tagged); (B 100 "debugged-gen", gm_all)].
Inductive strongest (ws : list wish) : list (copt * gmode) -> option gmode -> Prop :=
| sg_none : strongest ws [] None
| sg_this o m r : In (Flag o) ws -> strongest ws ((o, m) :: r) (Some m)
| sg_next o m r x : ~ In (Flag o) ws -> strongest ws r x -> strongest ws ((o, m) :: r) x.
(** two commands are at odds, unless they are lexical transfer and generation *)
Definition at_odds (ws : list wish) : Prop :=
  exists c d, asked ws c /\ asked ws d /\ c <> d /\
    ~ (c = Transfer /\ d = Generation) /\ ~ (c = Generation /\ d = Transfer).
Definition or_mode (v : option gmode) (m : gmode) : gmode := match v with Some m => m | None => m end.
(** what is to be done *)
Inductive decided (ws : list wish) : task -> Prop :=
| dc_transfer v : asked ws Transfer -> ~ asked ws Generation -> strongest ws kinds v ->
    decided ws (Transfers (or_mode v gm_unknown))
| dc_bilgen v : asked ws Transfer -> asked ws Generation -> strongest ws kinds v ->
    decided ws (Transfers (or_mode v gm_bilgen))
| dc_generation v : asked ws Generation -> ~ asked ws Transfer -> strongest ws kinds v ->
    decided ws (Generates (or_mode v gm_unknown))
| dc_analysis : asked ws Analysis -> decided ws Analyses
| dc_decomposition : asked ws Decomposition -> decided ws Decomposes
| dc_postgeneration : asked ws Postgeneration -> decided ws Postgenerates
| dc_transliteration : asked ws Transliteration -> decided ws Transliterates
| dc_annotation : asked ws Annotation -> decided ws Annotates
| dc_kind m : (forall c, ~ asked ws c) -> strongest ws kinds (Some m) -> decided ws (Generates m)
| dc_default : (forall c, ~ asked ws c) -> strongest ws kinds None -> decided ws Analyses.
(** a number written in decimal digits, and the limits *)
Inductive decimal : arg -> Z -> Prop :=
| dm_one d : 0 <= d < 10 -> decimal [48 + d] d
| dm_more l n d : decimal l n -> 0 <= d < 10 -> decimal (l ++ [48 + d]) (10 * n + d).
Inductive limited (o : copt) (ws : list wish) : option Z -> Prop :=
| lm_none : wished_values o ws [] -> limited o ws None
| lm_last l v n : wished_values o ws (l ++ [v]) -> decimal v n -> 1 <= n < 2 ^ 31 -> limited o ws (Some n).
(** * Streams: a missing name and "-" stand for the standard stream *)
Inductive meant (files : list arg) (n : nat) : stream -> Prop :=
| mt_missing : (length files <= n)%nat -> meant files n Std
| mt_dash : nth_error files n = Some [45] -> meant files n Std
| mt_named f : nth_error files n = Some f -> f <> [] -> f <> [45] -> meant files n (Named f).
