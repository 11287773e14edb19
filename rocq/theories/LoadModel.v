(** From the compiler to the processor: Compiler::write (lttoolbox/compiler.cc:1012-1015) and
    FSTProcessor::load, calcInitial, classifyFinals, initAnalysis, initGeneration
    (fst_processor.cc:422-463, 628-672).  Definitions only.

    The weights of the automaton model and of the processor model are integers, those of files
    are [weight]; the conversions are parameters.  Nodes are pointers in the code; here they
    are numbered: root is 0, then come the nodes of the transducers in the order of the map. *)
From Verif Require Import Base CompressionModel AlphabetModel TransducerModel FileModel StringModel
  ProcessorModel BilingualModel.

(** std::map<UString, T> by operator< of std::basic_string: unit by unit *)
Fixpoint name_before (a b : ustr) : bool :=
  match a, b with
  | _, [] => false
  | [], _ => true
  | x :: a, y :: b => (x <? y) || ((x =? y) && name_before a b)
  end.
Section ByName.
  Context {T : Type}.
  Fixpoint insert_by_name (x : ustr * T) (l : list (ustr * T)) : list (ustr * T) :=
    match l with
    | [] => [x]
    | y :: r => if name_before (fst x) (fst y) then x :: l else y :: insert_by_name x r
    end.
  (** The elements of the map in the order of iteration *)
  Definition by_name (l : list (ustr * T)) : list (ustr * T) := fold_right insert_by_name [] l.
End ByName.

(** * Writing *)
Definition file_trans (to_file : Z -> weight) (t : transducer) : ftrans :=
  mkF (initial t) (map (fun f => (fst f, to_file (snd f))) (finals t))
    (map (map (fun a : arc => (a_tag a, (a_dst a, to_file (a_wt a))))) (trans t)).
(** compiler.cc:1012-1015 [write] *)
Definition compiler_write (to_file : Z -> weight) (letters : ustr) (a : alphabet)
    (sections : list (ustr * transducer)) : outcome (list Z) :=
  writeTransducerSet letters a (map (fun x => (fst x, file_trans to_file (snd x))) (by_name sections)).

(** * Loading *)
(** 628-632 [load] *)
Definition load (inp : list Z) : outcome (list Z * alphabet * list (ustr * texe)) :=
  let! (letters, a, tes, _) := readTransducerSet_exe inp in
  Ok (letters, includeSymbol ANY_CHAR a, by_name tes).

Section Graph.
  Context (from_file : weight -> Z).
  Notation node_arcs := (Z -> list (Z * (nat * Z))).

  Fixpoint graph_nodes (base : nat) (tes : list (ustr * texe)) : list node_arcs :=
    match tes with
    | [] => []
    | (_, te) :: r =>
        map (fun (nd : node) c =>
               map (fun d : dest => (fst d, ((base + fst (snd d))%nat, from_file (snd (snd d))))) (node_find c nd))
          (te_nodes te)
        ++ graph_nodes (base + length (te_nodes te)) r
    end.
  (** 422-430 [calcInitial]: the arcs of root.  getInitial of a transducer whose initial state
      is not one of its nodes is not modelled: the file format theorems exclude it. *)
  Fixpoint root_arcs (base : nat) (tes : list (ustr * texe)) : list (Z * (nat * Z)) :=
    match tes with
    | [] => []
    | (_, te) :: r => (0, ((base + te_initial te)%nat, 0)) :: root_arcs (base + length (te_nodes te)) r
    end.
  Definition graph_find (tes : list (ustr * texe)) (n : nat) : node_arcs :=
    nth n ((fun c => if c =? 0 then root_arcs 1 tes else []) :: graph_nodes 1 tes) (fun _ => []).
  Definition node_finals (base : nat) (te : texe) : list (nat * Z) :=
    map (fun f => ((base + fst f)%nat, from_file (snd f))) (te_finals te).

  (** string_utils.cc:290-295 [endswith] *)
  Definition endswith (str suffix : ustr) : bool :=
    (length suffix <=? length str)%nat
    && if ustr_eq_dec (skipn (length str - length suffix) str) suffix then true else false.
  Definition s_inconditional : ustr := [64; 105; 110; 99; 111; 110; 100; 105; 116; 105; 111; 110; 97; 108].
  Definition s_standard : ustr := [64; 115; 116; 97; 110; 100; 97; 114; 100].
  Definition s_postblank : ustr := [64; 112; 111; 115; 116; 98; 108; 97; 110; 107].
  Definition s_preblank : ustr := [64; 112; 114; 101; 98; 108; 97; 110; 107].
  (** 432-463 [classifyFinals]: standard, inconditional, postblank, preblank *)
  Record classes := mkCl { cl_standard : list (nat * Z); cl_incond : list (nat * Z);
    cl_postblank : list (nat * Z); cl_preblank : list (nat * Z) }.
  Fixpoint classifyFinals (base : nat) (tes : list (ustr * texe)) (k : classes) : outcome classes :=
    match tes with
    | [] => Ok k
    | (name, te) :: r =>
        let f := node_finals base te in
        let! k :=
          if endswith name s_inconditional then
            Ok (mkCl (cl_standard k) (cl_incond k ++ f) (cl_postblank k) (cl_preblank k))
          else if endswith name s_standard then
            Ok (mkCl (cl_standard k ++ f) (cl_incond k) (cl_postblank k) (cl_preblank k))
          else if endswith name s_postblank then
            Ok (mkCl (cl_standard k) (cl_incond k) (cl_postblank k ++ f) (cl_preblank k))
          else if endswith name s_preblank then
            Ok (mkCl (cl_standard k) (cl_incond k) (cl_postblank k) (cl_preblank k ++ f))
          else Exit in
        classifyFinals (base + length (te_nodes te)) r k
    end.
  (** 661-664: the final nodes of all transducers *)
  Fixpoint every_final (base : nat) (tes : list (ustr * texe)) : list (nat * Z) :=
    match tes with
    | [] => []
    | (_, te) :: r => node_finals base te ++ every_final (base + length (te_nodes te)) r
    end.

  (** The processor with the options of [Q] and a loaded dictionary *)
  Definition processor_of (Q : processor) (letters : list Z) (a : alphabet) (tes : list (ustr * texe)) (k : classes)
    : processor :=
    mkP (graph_find tes) 0 (p_fuel Q) (cl_standard k) (cl_incond k) (cl_postblank k) (cl_preblank k)
      a letters (p_ignored Q) (p_isalnum Q) (p_isspace Q) (p_isupper Q) (p_tolower Q) (p_toupper Q) (p_ctolower Q)
      (p_strlower Q) (p_sort Q) (p_caseSensitive Q) (p_dictionaryCase Q) (p_weights Q) (p_maxAnalyses Q) (p_maxClasses Q)
      (p_decomp Q) (p_onlyL Q) (p_cpR Q) (p_maxElements Q) (p_rcx Q).

  (** load, then 634-643 [initAnalysis] *)
  Definition load_analysis (Q : processor) (inp : list Z) : outcome processor :=
    let! (letters, a, tes) := load inp in
    let! k := classifyFinals 1 tes (mkCl [] [] [] []) in
    Ok (processor_of Q letters a tes k).
  (** load, then 656-665 [initGeneration] and 673-677 [initBiltrans]: all_finals has the final
      nodes of all transducers and the four kinds are not used; they are put in the first.
      The option for ignored characters is left as it is in [Q]: only analysis reads it. *)
  Definition load_generation (Q : processor) (inp : list Z) : outcome processor :=
    let! (letters, a, tes) := load inp in
    Ok (processor_of Q letters a tes (mkCl (every_final 1 tes) [] [] [])).
End Graph.
