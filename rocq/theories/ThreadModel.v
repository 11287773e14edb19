(** Worker threads of lt-comp (lttoolbox/compiler.cc:71-88) and lt-compose
    (lttoolbox/lt_compose.cc:25-97).  Definitions only.

    A thread is a program of atomic steps on a shared memory; an execution takes, again and
    again, a step of any thread.  The main thread only starts the others and waits for them
    (a thread that has not been started is one that has not made a step).  An exit in one
    thread ends the process.  Steps are atomic and in one order: C++ promises this only
    without data races, so what is refuted here is wrong all the more in C++. *)
From Verif Require Import Base CompressionModel SerialiserModel SortedVectorModel
  AlphabetModel TransducerModel ComposeModel.

Section Prog.
  Context {M : Type}.
  (** [Step w k]: the memory m becomes [w m], the rest is [k m]. *)
  Inductive prog (A : Type) :=
  | Done (r : outcome A)
  | Step (w : M -> M) (k : M -> prog A).
  Arguments Done {A} r.
  Arguments Step {A} w k.
  Definition fail {A B} (r : outcome A) : outcome B :=
    match r with Ok _ => UB | Exit => Exit | Throw => Throw | UB => UB | NoFuel => NoFuel end.
  Fixpoint pbind {A B} (p : prog A) (f : A -> prog B) : prog B :=
    match p with
    | Done (Ok a) => f a
    | Done r => Done (fail r)
    | Step w k => Step w (fun m => pbind (k m) f)
    end.
  Definition ret {A} (a : A) : prog A := Done (Ok a).
  (** A single thread. *)
  Fixpoint run {A} (p : prog A) (m : M) : outcome (A * M) :=
    match p with
    | Done r => let! a := r in Ok (a, m)
    | Step w k => run (k m) (w m)
    end.
  (** One after the other. *)
  Fixpoint run_all {A} (ps : list (prog A)) (m : M) : outcome (list A * M) :=
    match ps with
    | [] => Ok ([], m)
    | p :: ps =>
        let! (a, m) := run p m in
        let! (l, m) := run_all ps m in
        Ok (a :: l, m)
    end.
  (** All together. *)
  Inductive exec {A} : list (prog A) -> M -> outcome (list A * M) -> Prop :=
  | ex_end l m : exec (map ret l) m (Ok (l, m))
  | ex_stop ps1 e ps2 m : (forall a, e <> Ok a) -> exec (ps1 ++ Done e :: ps2) m (fail e)
  | ex_step ps1 w k ps2 m r : exec (ps1 ++ k m :: ps2) (w m) r -> exec (ps1 ++ Step w k :: ps2) m r.
  (** The steps alone. *)
  Inductive pool_step {A} : list (prog A) * M -> list (prog A) * M -> Prop :=
  | ps_step ps1 w k ps2 m : pool_step (ps1 ++ Step w k :: ps2, m) (ps1 ++ k m :: ps2, w m).
End Prog.
Arguments prog : clear implicits.
Arguments Done {M A} r.
Arguments Step {M A} w k.
Notation "'do!' x ':=' e 'in' k" := (pbind e (fun x => k))
  (at level 200, x pattern, e at level 100, k at level 200, right associativity).

(** * lt-comp *)
(** The memory is the list of the sections; a program for a section as a thread on it. *)
Fixpoint on_section {A} (i : nat) (p : prog transducer A) : prog (list transducer) A :=
  match p with
  | Done r => Done r
  | Step w k =>
      Step (fun m => match nth_error m i with Some t => list_set i (w t) m | None => m end)
           (fun m => match nth_error m i with Some t => on_section i (k t) | None => Done UB end)
  end.
(** A member function that changes its transducer. *)
Definition apply_op (op : transducer -> outcome transducer) : prog transducer unit :=
  Step (fun t => match op t with Ok t' => t' | _ => t end)
       (fun t => Done (let! _ := op t in Ok tt)).
(** transducer.cc:396-404 [minimize]. *)
Definition minimize_p (eps : Z) : prog transducer unit :=
  Step (fun t => t) (fun t =>
    match finals t with
    | [] => ret tt
    | _ =>
        do! _ := apply_op (reverse eps) in
        do! _ := apply_op (determinize eps) in
        do! _ := apply_op (reverse eps) in
        apply_op (determinize eps)
    end).
(** compiler.cc:74-88 with jobs: one thread per section. *)
Definition minimisations (eps : Z) (ts : list transducer) : list (prog (list transducer) unit) :=
  map (fun i => on_section i (minimize_p eps)) (seq 0 (length ts)).
(** The same without jobs. *)
Fixpoint minimize_all (eps : Z) (ts : list transducer) : outcome (list transducer) :=
  match ts with
  | [] => Ok []
  | t :: ts =>
      let! t := minimize eps t in
      let! ts := minimize_all eps ts in
      Ok (t :: ts)
  end.

(** * lt-compose *)
(** The memory is alph_f.  Everything else a thread changes is its own. *)
Notation aprog := (prog alphabet).
Definition read_a {A} (f : alphabet -> outcome A) : aprog A := Step (fun a => a) (fun a => Done (f a)).
Definition pure {A} (x : outcome A) : aprog A := Done x.
(** alphabet.cc:85-97 [operator()(c1,c2)]: the find of line 88, the size of line 90, the
    assignment of line 91 (which takes the size before), the push_back of line 92 and the
    operator[] of line 95, which makes an entry 0 if there is none. *)
Definition pair_code_p (c : Z * Z) : aprog Z :=
  let get :=
    Step (fun a => match map_find pair_eq_dec c (spair a) with
                   | Some _ => a
                   | None => mkAlphabet (slexic a) (slexicinv a) (map_set pair_eq_dec c 0 (spair a)) (spairinv a)
                   end)
         (fun a => ret (match map_find pair_eq_dec c (spair a) with Some v => v | None => 0 end)) in
  Step (fun a => a) (fun a =>
    match map_find pair_eq_dec c (spair a) with
    | Some _ => get
    | None =>
        Step (fun a => a) (fun a =>
          let n := Z.of_nat (length (spair a)) in
          Step (fun a => mkAlphabet (slexic a) (slexicinv a) (map_set pair_eq_dec c n (spair a)) (spairinv a)) (fun _ =>
          Step (fun a => mkAlphabet (slexic a) (slexicinv a) (spair a) (spairinv a ++ [c])) (fun _ => get)))
    end).
(** transducer.h:454-471 [composeLabel]. *)
Definition composeLabel_p (g_a : alphabet) (f_input g_right : Z) (f_inverted : bool) : aprog Z :=
  do! r := if 0 <=? g_right then ret g_right
           else do! s := pure (getSymbol g_right g_a) in read_a (fun f_a => Ok (symbol_code s f_a)) in
  pair_code_p (if f_inverted then (r, f_input) else (f_input, r)).

(** transducer.cc:1373-1571 [compose], as in ComposeModel.v; the field [c_alpha] is not used. *)
Definition c_visit_new_p (g_a : alphabet) (f_inverted : bool) (gf_src : nat) (next : spair_t)
    (f_input g_right weight : Z) (st : cst) : aprog cst :=
  do! label := composeLabel_p g_a f_input g_right f_inverted in
  pure (c_visit gf_src next label weight st).
Section Compose.
  Context (f g : transducer) (g_a : alphabet) (f_inverted g_anywhere : bool).
  Fixpoint c_geps_p (f_src gf_src : nat) (arcs : list arc) (st : cst) : aprog cst :=
    match arcs with
    | [] => ret st
    | a :: r =>
        do! (g_left, g_right) := pure (decode (a_tag a) g_a) in
        do! st :=
          if g_left =? 0
          then c_visit_new_p g_a f_inverted gf_src (f_src, a_dst a) 0 g_right (a_wt a) st
          else ret st in
        c_geps_p f_src gf_src r st
    end.
  Fixpoint c_match_p (gf_src f_trg : nat) (f_input f_output f_wt : Z) (arcs : list arc) (st : cst)
    : aprog cst :=
    match arcs with
    | [] => ret st
    | a :: r =>
        do! (g_left, g_right) := pure (decode (a_tag a) g_a) in
        do! same :=
          if g_left =? 0 then ret false else read_a (fun f_a => sameSymbol f_a f_output g_a g_left) in
        do! st :=
          if (same : bool)
          then c_visit_new_p g_a f_inverted gf_src (f_trg, a_dst a) f_input g_right
                 (f_wt + a_wt a) st
          else ret st in
        c_match_p gf_src f_trg f_input f_output f_wt r st
    end.
  Fixpoint c_farcs_p (g_src gf_src : nat) (arcs : list arc) (st : cst) : aprog cst :=
    match arcs with
    | [] => ret st
    | a :: r =>
        do! pr := read_a (decode (a_tag a)) in
        let '(f_input, f_output) := if f_inverted then (snd pr, fst pr) else pr in
        do! st := c_match_p gf_src (a_dst a) f_input f_output (a_wt a) (arcs_of g g_src) st in
        do! st :=
          if g_anywhere && (g_src =? initial g)%nat
          then pure (c_visit gf_src (a_dst a, g_src) (a_tag a) (a_wt a) st) else ret st in
        do! st :=
          if f_output =? 0
          then pure (c_visit gf_src (a_dst a, g_src) (a_tag a) (a_wt a) st) else ret st in
        c_farcs_p g_src gf_src r st
    end.
  Fixpoint c_loop_p (fuel : nat) (st : cst) : aprog cst :=
    match c_todo st with
    | [] => ret st
    | current :: todo =>
        match fuel with
        | O => Done NoFuel
        | S fuel =>
            let st := mkC (c_gf st) (c_map st) todo (current :: c_seen st) (c_alpha st) in
            match cfind current (c_map st) with
            | None => Done Exit
            | Some gf_src =>
                do! st := c_geps_p (fst current) gf_src (arcs_of g (snd current)) st in
                do! st := c_farcs_p (snd current) gf_src (arcs_of f (fst current)) st in
                c_loop_p fuel st
            end
        end
    end.
End Compose.
Definition compose_p (fuel : nat) (g : transducer) (g_a : alphabet)
    (f_inverted g_anywhere : bool) (epsilon_tag : Z) (this : transducer) : aprog transducer :=
  do! f := pure (joinFinals epsilon_tag this) in
  let start := (initial f, initial g) in
  do! st := c_loop_p f g g_a f_inverted g_anywhere fuel
              (mkC new_transducer [(start, initial new_transducer)] [start] [] new_alphabet) in
  ret (mkT (initial (c_gf st)) (c_finals f g g_anywhere (c_map st)) (trans (c_gf st))).

Section Tool.
  Context (fuel : nat) (g_a : alphabet) (f_inverted g_anywhere : bool) (union_g : transducer).
  (** lt_compose.cc:56-72: the work for a section. *)
  Definition composition (f : transducer) : aprog transducer :=
    do! gf := compose_p fuel union_g g_a f_inverted g_anywhere 0 f in
    match finals gf with
    | [] => ret gf
    | _ => pure (minimize 0 gf)
    end.
  (** transducer.cc:481-492 [numberOfTransitions]. *)
  Definition numberOfTransitions (t : transducer) : nat := list_sum (map (@length arc) (trans t)).
  Notation section := (ustr * transducer)%type.
  (** 51-54: sections without transitions are skipped. *)
  Definition worked_on (fs : list section) : list section :=
    filter (fun s => negb (numberOfTransitions (snd s) =? 0)%nat) fs.
  (** 84-89: the results with final states, by name.  The names of a std::map are distinct. *)
  Definition collect (fs : list section) (rs : list transducer) : list section :=
    filter (fun s => match finals (snd s) with [] => false | _ => true end) (combine (map fst fs) rs).
  (** 50-89 with jobs: a thread for every section. *)
  Definition compositions (fs : list section) : list (aprog transducer) :=
    map (fun s => composition (snd s)) (worked_on fs).
  (** 50-83 without jobs. *)
  Fixpoint compose_seq (fs : list section) (f_a : alphabet) : outcome (list section * alphabet) :=
    match fs with
    | [] => Ok ([], f_a)
    | (name, f) :: fs =>
        if (numberOfTransitions f =? 0)%nat then compose_seq fs f_a
        else
          let! (gf, f_a) := compose fuel union_g f_a g_a f_inverted g_anywhere 0 f in
          match finals gf with
          | [] => compose_seq fs f_a
          | _ =>
              let! gf := minimize 0 gf in
              let! (r, f_a) := compose_seq fs f_a in
              Ok ((name, gf) :: r, f_a)
          end
    end.
End Tool.
(** lt_compose.cc:38-47: the union of the sections of g. *)
Fixpoint union_all (gs : list transducer) (u : transducer) : outcome transducer :=
  match gs with
  | [] => Ok u
  | g :: gs =>
      if isEmpty u then union_all gs g
      else
        let! (u, _) := unionWith g 0 u in
        union_all gs u
  end.
Definition union_g (gs : list transducer) : outcome transducer :=
  let! u := union_all gs new_transducer in minimize 0 u.
