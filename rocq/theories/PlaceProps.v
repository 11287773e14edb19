(** C93: what becomes of the files named to a program that makes a dictionary. *)
From Verif Require Import Base CompressionModel AlphabetModel AlphabetProofs AlphabetProps FileModel FileProps PlaceModel.

(** * Specification: two states of the files differ in [n] at most *)
Definition differ_in (n : list Z) (fs fs' : list Z -> option (list Z)) : Prop := forall m, m <> n -> fs' m = fs m.

(** * Proofs *)
Lemma put_same : forall fs n bs, put fs n bs n = Some bs.
Proof. intros. unfold put. destruct (name_dec n n); congruence. Qed.
Lemma put_other : forall fs n bs m, m <> n -> put fs n bs m = fs m.
Proof. intros. unfold put. destruct (name_dec m n); congruence. Qed.
Lemma open_all : forall fs ins, open_inputs fs ins = true <-> forall n, In n ins -> fs n <> None.
Proof.
  induction ins as [|n ins IH]; cbn [open_inputs]; [split; [intros _ n []|reflexivity]|].
  destruct (fs n) eqn:E.
  - rewrite IH. split; [intros H m [<-|I]; [congruence|now apply H]|intros H m I; apply H; now right].
  - split; [discriminate|]. intro H. destruct (H n (or_introl eq_refl) E).
Qed.
Lemma read_apart : forall fs out ins l, ~ In out ins -> Forall2 (fun n bs => fs n = Some bs) ins l ->
  map (contents (open_output fs out)) ins = l /\ open_inputs fs ins = true.
Proof.
  intros fs out ins l N F. induction F as [|n bs ins l E F IH]; [now split|].
  destruct IH as [IH1 IH2]; [intro I; apply N; now right|]. cbn [map open_inputs]. rewrite E, IH1, IH2. split; [|reflexivity]. f_equal.
  unfold contents, open_output. rewrite put_other, E; [reflexivity|]. intros ->. apply N. now left.
Qed.

(** C93: with an output of its own the result is made of what the inputs hold, and nothing else
    changes *)
Theorem C93_apart : forall fs ins out work l bs, ~ In out ins -> Forall2 (fun n b => fs n = Some b) ins l -> work l = Ok bs ->
  exists fs', run_tool fs ins out work = (Ok tt, fs') /\ fs' out = Some bs /\ differ_in out fs fs'.
Proof.
  intros fs ins out work l bs N F W. destruct (read_apart fs out ins l N F) as [R O]. unfold run_tool. rewrite O. cbv zeta. rewrite R, W.
  eexists. split; [reflexivity|]. split; [apply put_same|]. intros m D. unfold open_output. now rewrite !put_other.
Qed.
(** C93: whatever happens, no file but the output changes *)
Theorem C93_others : forall fs ins out work, differ_in out fs (snd (run_tool fs ins out work)).
Proof.
  intros fs ins out work m D. unfold run_tool. destruct (open_inputs fs ins); [|reflexivity]. cbv zeta.
  destruct (work _); cbn [snd]; unfold open_output; now rewrite ?put_other.
Qed.
(** C93: if an input is missing the program ends and the output is as it was *)
Theorem C93_missing : forall fs ins out work n, In n ins -> fs n = None -> run_tool fs ins out work = (Exit, fs).
Proof.
  intros fs ins out work n I E. unfold run_tool. destruct (open_inputs fs ins) eqn:O; [|reflexivity].
  rewrite open_all in O. destruct (O n I E).
Qed.
(** C93, refuted: if the program fails after that, the old output is gone *)
Theorem C93_failure_refuted : forall fs ins out work l, ~ In out ins -> Forall2 (fun n b => fs n = Some b) ins l ->
  (forall b, work l <> Ok b) -> snd (run_tool fs ins out work) out = Some [].
Proof.
  intros fs ins out work l N F W. destruct (read_apart fs out ins l N F) as [R O]. unfold run_tool. rewrite O. cbv zeta. rewrite R.
  destruct (work l) as [b| | | |]; [destruct (W b eq_refl)|..]; apply put_same.
Qed.
(** C93, refuted for all six programs: when the output is also an input, what it held makes no
    difference to anything *)
Theorem C93_old_refuted : forall fs ins out work old1 old2, In out ins -> (forall n, In n ins -> n <> out -> fs n <> None) ->
  fst (run_tool (put fs out old1) ins out work) = fst (run_tool (put fs out old2) ins out work) /\
  forall m, snd (run_tool (put fs out old1) ins out work) m = snd (run_tool (put fs out old2) ins out work) m.
Proof.
  intros fs ins out work old1 old2 _ H.
  assert (O : forall b, open_inputs (put fs out b) ins = true).
  { intro b. apply open_all. intros n I. unfold put. destruct (name_dec n out); [discriminate|now apply H]. }
  assert (S : forall b m, open_output (put fs out b) out m = open_output fs out m).
  { intros b m. unfold open_output, put. now destruct (name_dec m out). }
  assert (M : map (contents (open_output (put fs out old1) out)) ins = map (contents (open_output (put fs out old2) out)) ins).
  { apply map_ext. intro n. unfold contents. now rewrite !S. }
  unfold run_tool. rewrite !O. cbv zeta. rewrite M.
  destruct (work (map (contents (open_output (put fs out old2) out)) ins)); cbn [fst snd]; (split; [reflexivity|]); intro m; try (now rewrite !S).
  unfold put at 1 3. destruct (name_dec m out); [reflexivity|]. now rewrite !S.
Qed.
(** C93, refuted: a dictionary cannot be rewritten in place.  Whatever the operation on the sections
    and whatever the file held, the program succeeds and leaves a dictionary without sections. *)
Definition nothing : list Z := [76; 84; 84; 66; 0; 0; 0; 0; 0; 0; 0; 0; 0; 0; 0; 0].
Theorem C93_in_place_refuted : forall g fs n old, fs n = Some old ->
  fst (run_tool fs [n] n (section_work g)) = Ok tt /\ snd (run_tool fs [n] n (section_work g)) n = Some nothing.
Proof.
  intros g fs n old E. unfold run_tool. cbn [open_inputs]. rewrite E. cbv zeta. cbn [map].
  replace (contents (open_output fs n) n) with (@nil Z) by (unfold contents, open_output; now rewrite put_same).
  assert (W : section_work g [[]] = Ok nothing) by reflexivity. rewrite W. split; [reflexivity|]. apply put_same.
Qed.
Example C93_nothing : exists letters a, readTransducerSet nothing = Ok (letters, a, [], []).
Proof. do 2 eexists. vm_compute. reflexivity. Qed.
(** A dictionary with the section "x" in the file "a": copied to "b" it is the same; copied onto
    itself it has lost the section. *)
Definition c93_old : list Z := match writeTransducerSet [99] (after []) [([120], mkF 0 [] [[]])] with Ok b => b | _ => [] end.
Definition c93_files : files := fun n => if name_dec n [97] then Some c93_old else None.
Definition c93_copy : list (list Z) -> outcome (list Z) := section_work (fun t a => Ok (t, a)).
Example C93_example :
  snd (run_tool c93_files [[97]] [98] c93_copy) [98] = Some c93_old /\
  snd (run_tool c93_files [[97]] [98] c93_copy) [97] = Some c93_old /\
  snd (run_tool c93_files [[97]] [97] c93_copy) [97] = Some nothing /\
  (length c93_old > 16)%nat.
Proof. repeat (split; [vm_compute; reflexivity|]). vm_compute. repeat constructor. Qed.
(** an operation that fails *)
Example C93_example_failure : run_tool (put c93_files [98] [1; 2; 3]) [[97]] [98] (section_work (fun _ _ => Throw))
  = (Throw, open_output (put c93_files [98] [1; 2; 3]) [98]).
Proof. reflexivity. Qed.
Print Assumptions C93_apart.
Print Assumptions C93_others.
Print Assumptions C93_missing.
Print Assumptions C93_failure_refuted.
Print Assumptions C93_old_refuted.
Print Assumptions C93_in_place_refuted.
