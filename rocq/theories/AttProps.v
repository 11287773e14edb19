(** Properties of AT&T compilation and of lt-print. *)
From Verif Require Import Base AlphabetModel TransducerModel TransducerSpec RelabelSpec ComposeSpec AttModel AttSpec
  AttProofs AttGraphProofs AttFileProofs AttPartsProofs.
From Coq Require String Ascii.
From Verif Require Import StreamProps.
Import String.StringSyntax.

(** * C66 *)
(** Without splitting (lt-comp -S) the one section accepts exactly the words of the file; a word
    that the file gives is accepted with its weight unless a transition is given twice with
    different weights. *)
Theorem C66_compile : forall punct space lower upper toupper tolower hfst rl text ms,
  file_says hfst text ms -> fits ms -> (forall m, ms = [m] -> start_of m = 0) ->
  exists letters a t, att_compile punct space lower upper toupper tolower hfst rl false text = Ok (letters, a, [(main_name, t)]) /\ wf t
    /\ (forall x y c, section_means rl t a x y c -> file_means ms x y c)
    /\ (forall x y c, file_means ms x y c -> exists c', section_means rl t a x y c')
    /\ (Forall weights_agree ms -> forall x y c, file_means ms x y c -> section_means rl t a x y c).
Proof. intros. now apply compile_plain. Qed.

(** The letters are the word characters of the file, each with its other case. *)
Theorem C66_letters : forall punct space lower upper toupper tolower hfst rl splitting text ms letters a secs,
  file_says hfst text ms -> fits ms ->
  att_compile punct space lower upper toupper tolower hfst rl splitting text = Ok (letters, a, secs) ->
  (forall m l c v, In m ms -> In l m -> In (SChar c) (line_chars l) -> letter_of punct space lower upper toupper tolower c v -> 0 <= v < 65536) ->
  forall v, In v letters <->
    exists m l c, In m ms /\ In l m /\ In (SChar c) (line_chars l) /\ letter_of punct space lower upper toupper tolower c v.
Proof.
  intros until secs. intros FS FI H BMP v. rewrite (compile_letters _ _ _ _ _ _ _ _ _ _ _ _ _ _ FS FI H v).
  split; intros (m & l & c & Hm & Hl & Hc & K); exists m, l, c; repeat (split; [assumption|]).
  - apply from_char_letter in K; [exact K|]. intros w Hw. eapply BMP; eassumption.
  - apply from_char_letter; [|exact K]. intros w Hw. eapply BMP; eassumption.
Qed.

(** With splitting (the default) the sections accept only words of the file. *)
Theorem C66_split_sound : forall punct space lower upper toupper tolower hfst rl text ms letters a secs,
  file_says hfst text ms -> fits ms -> (forall m, ms = [m] -> start_of m = 0) ->
  att_compile punct space lower upper toupper tolower hfst rl true text = Ok (letters, a, secs) ->
  forall name t, In (name, t) secs -> (name = main_name \/ name = final_name) /\ wf t
    /\ forall x y c, section_means rl t a x y c -> file_means ms x y c.
Proof. intros until secs. intros FS FI H1 H. eapply compile_split_sound; eassumption. Qed.

(** A word whose first character is a word character is in main@standard, one whose first
    character is punctuation in final@inconditional, unless one of the states on its way can also
    be reached without reading a character of that kind. *)
Theorem C66_split : forall punct space lower upper toupper tolower hfst rl text ms,
  file_says hfst text ms -> fits ms -> (forall m, ms = [m] -> start_of m = 0) ->
  Forall (plain_start rl punct space) ms ->
  exists letters a secs, att_compile punct space lower upper toupper tolower hfst rl true text = Ok (letters, a, secs)
    /\ forall name (K : Z -> Prop), (name = main_name /\ K = word_letter punct space) \/ (name = final_name /\ K = (fun c => punct c = true)) ->
       forall m s' u l w d r y z c s'' f, In m ms -> In (LArc (start_of m) s' u l w) m -> side rl u l = SChar d :: r -> K d ->
         walk_apart rl K m (start_of m) s' y z c s'' -> final_line m s'' f ->
         exists t c', In (name, t) secs /\ section_means rl t a (u ++ y) (l ++ z) c' /\ (Forall weights_agree ms -> c' = w + c + f).
Proof.
  intros until ms. intros FS FI H1 PS.
  destruct (compile_split punct space lower upper toupper tolower hfst rl text ms FS FI H1 PS) as (letters & a & secs & E & K1 & _).
  exists letters, a, secs. split; [exact E|]. intros name K CL. 
  assert (H : exists T, class_of punct space T K /\ section_name T = name) by (destruct CL as [[-> ->]|[-> ->]]; [exists 1|exists 2]; split; unfold class_of; auto).
  destruct H as (T & CT & <-). intros. eapply K1; eassumption.
Qed.

(** When no transition leads back to the start, the words of final@inconditional all begin with
    punctuation and those of main@standard with a letter. *)
Theorem C66_parts : forall punct space lower upper toupper tolower hfst rl text ms letters a secs,
  file_says hfst text ms -> fits ms -> (forall m, ms = [m] -> start_of m = 0) ->
  Forall (plain_start rl punct space) ms -> Forall fresh_start ms ->
  att_compile punct space lower upper toupper tolower hfst rl true text = Ok (letters, a, secs) ->
  (forall t x y c, In (main_name, t) secs -> section_means rl t a x y c -> exists d r, side rl x y = SChar d :: r /\ In (d mod 65536) letters)
  /\ (forall t x y c, In (final_name, t) secs -> section_means rl t a x y c -> exists d r, side rl x y = SChar d :: r /\ punct d = true).
Proof.
  intros until secs. intros FS FI H1 PS FR H.
  destruct (compile_split punct space lower upper toupper tolower hfst rl text ms FS FI H1 PS) as (letters' & a' & secs' & E & _ & K).
  rewrite H in E. injection E as <- <- <-. specialize (K FR). split; intros t x y c Ht Hm.
  - destruct (K 1 (or_introl eq_refl) t x y c Ht Hm) as (d & r & Es & H' & _). eauto.
  - destruct (K 2 (or_intror eq_refl) t x y c Ht Hm) as (d & r & Es & _ & H'). eauto.
Qed.

(** ** Cases *)
(** Characters as ICU has them, for ASCII. *)
Definition asc_punct (c : Z) : bool := existsb (Z.eqb c) (txt "!#%&'()*,-./:;?@[\]_{}" ++ [34]).
Definition asc_space (c : Z) : bool := existsb (Z.eqb c) [9; 10; 13; 32].
Definition asc_lower (c : Z) : bool := (97 <=? c) && (c <=? 122).
Definition asc_upper (c : Z) : bool := (65 <=? c) && (c <=? 90).
Definition asc_toupper (c : Z) : Z := if asc_lower c then c - 32 else c.
Definition asc_tolower (c : Z) : Z := if asc_upper c then c + 32 else c.
Notation asc_compile := (att_compile asc_punct asc_space asc_lower asc_upper asc_toupper asc_tolower).

Ltac num := split; [discriminate|split; [vm_compute; repeat (constructor; [split; intros K; discriminate K|]); constructor|reflexivity]].
Ltac colc cs := apply (col_chars _ cs); [repeat (constructor; [unfold character; lia|]); constructor
  |cbn; intros K; repeat (destruct K as [K|K]; [discriminate K|]); destruct K|intros (? & K); discriminate K].
Ltac units := vm_compute; repeat (constructor; [repeat (constructor; [repeat split; intros K; discriminate K|]); constructor|]); constructor.

(** Two transducers: "cat" / "cat<n>", and "?" / "?<sent>" of weight 0.5 *)
Definition at_rows1 : list (list ustr) :=
  [[txt "0"; txt "1"; txt "c"; txt "c"]; [txt "1"; txt "2"; txt "at"; txt "at"]; [txt "2"; txt "3"; txt "@0@"; txt "<n>"]; [txt "3"]].
Definition at_rows2 : list (list ustr) :=
  [[txt "0"; txt "1"; txt "?"; txt "?"; txt "0.5"]; [txt "1"; txt "2"; [949]; txt "<sent>"]; [txt "2"; txt "0"]].
Definition at_text : ustr := flat_map line_text at_rows1 ++ line_text [[45; 45]] ++ flat_map line_text at_rows2.
Definition at_m1 : list line :=
  [LArc 0 1 [SChar 99] [SChar 99] 0; LArc 1 2 [SChar 97; SChar 116] [SChar 97; SChar 116] 0; LArc 2 3 [] [STag (txt "<n>")] 0; LFinal 3 0].
Definition at_m2 : list line := [LArc 0 1 [SChar 63] [SChar 63] 500000; LArc 1 2 [] [STag (txt "<sent>")] 0; LFinal 2 0].
Lemma at_says : file_says false at_text [at_m1; at_m2].
Proof.
  apply fs_more; [|apply fs_one].
  - split; [|now exists (txt "0"), (txt "1"), [txt "c"; txt "c"]; eexists].
    unfold at_rows1, at_m1; repeat apply Forall2_cons; try apply Forall2_nil; (split; [|units]).
    + apply cl_arc; [num|num|colc [99]|colc [99]].
    + apply cl_arc; [num|num|colc [97; 116]|colc [97; 116]].
    + apply cl_arc; [num|num|now constructor|]. apply col_tag. now exists (txt "n").
    + apply cl_final. num.
  - split; [|now exists (txt "0"), (txt "1"), [txt "?"; txt "?"; txt "0.5"]; eexists].
    unfold at_rows2, at_m2; repeat apply Forall2_cons; try apply Forall2_nil; (split; [|units]).
    + apply cl_weighted; [num|num|colc [63]|colc [63]|]. apply (am_point (txt "0") 0 (txt "5")); [num|vm_compute; repeat (constructor; [split; intros K; discriminate K|]); constructor|cbn; lia].
    + apply cl_arc; [num|num|now constructor|]. apply col_tag. now exists (txt "sent").
    + apply (cl_final_weighted _ (txt "2") (txt "0") 2 0); [num|]. apply (am_whole (txt "0") 0). num.
Qed.
Lemma at_fits : fits [at_m1; at_m2]. Proof. reflexivity. Qed.

Ltac easy_file rows m := apply fs_one; (split; [|unfold rows; repeat eexists]); unfold rows, m; repeat apply Forall2_cons; try apply Forall2_nil; (split; [|units]).
Ltac easy_line := first [apply cl_final; num | apply cl_arc; [num|num| |] | eapply cl_weighted; [num|num| | |]].
Lemma weights_checked : forall m,
  forallb (fun x => forallb (fun y => match x, y with LArc s s' _ _ w, LArc r r' _ _ v => negb ((s =? r) && (s' =? r')) || (w =? v) | _, _ => true end) m) m = true ->
  weights_agree m.
Proof.
  intros m H s s' u l w w' H1 H2. rewrite forallb_forall in H. assert (K := H _ H1). rewrite forallb_forall in K. specialize (K _ H2). cbn beta iota in K.
  rewrite !Z.eqb_refl in K. cbn [andb negb orb] in K. now apply Z.eqb_eq.
Qed.

(** The two transducers are read, and the words of the second have their weight. *)
Example C66_compile_case : exists letters a t, asc_compile false false false at_text = Ok (letters, a, [(main_name, t)])
  /\ section_means false t a [SChar 99; SChar 97; SChar 116] [SChar 99; SChar 97; SChar 116; STag (txt "<n>")] 0
  /\ section_means false t a [SChar 63] [SChar 63; STag (txt "<sent>")] 500000.
Proof.
  destruct (C66_compile asc_punct asc_space asc_lower asc_upper asc_toupper asc_tolower false false at_text [at_m1; at_m2] at_says at_fits) as (letters & a & t & E & _ & S & _ & K); [discriminate|].
  assert (WA : Forall weights_agree [at_m1; at_m2]) by (repeat constructor; apply weights_checked; reflexivity).
  exists letters, a, t. split; [exact E|]. split.
  - apply (K WA). exists at_m1. split; [now left|]. exists 3, 0, 0. split; [|split; [|reflexivity]].
    + apply (walk_cons at_m1 0 1 [SChar 99] [SChar 99] 0 _ _ 0); [now left|]. apply (walk_cons at_m1 1 2 [SChar 97; SChar 116] [SChar 97; SChar 116] 0 [] _ 0); [right; now left|].
      apply (walk_cons at_m1 2 3 [] [STag (txt "<n>")] 0 [] [] 0); [do 2 right; now left|]. constructor.
    + repeat (apply fl_later; [intros ? XX; discriminate XX|]). apply fl_here.
  - apply (K WA). exists at_m2. split; [right; now left|]. exists 2, 500000, 0. split; [|split; [|reflexivity]].
    + apply (walk_cons at_m2 0 1 [SChar 63] [SChar 63] 500000 [] _ 0); [now left|]. apply (walk_cons at_m2 1 2 [] [STag (txt "<sent>")] 0 [] [] 0); [right; now left|]. constructor.
    + repeat (apply fl_later; [intros ? XX; discriminate XX|]). apply fl_here.
Qed.
(** Split: the sections of the same file, "?" in one and "cat" in the other; the letters are
    those of "cat". *)
Example C66_split_case : exists letters a f w, asc_compile false false true at_text = Ok (letters, a, [(final_name, f); (main_name, w)])
  /\ letters = txt "TtAaCc" /\ map (fun p => length (concat (trans p))) [f; w] = [3; 5]%nat
  /\ Forall (plain_start false asc_punct asc_space) [at_m1; at_m2] /\ Forall fresh_start [at_m1; at_m2]
  /\ walk_apart false (word_letter asc_punct asc_space) at_m1 0 1 [SChar 97; SChar 116] [SChar 97; SChar 116; STag (txt "<n>")] 0 3.
Proof.
  do 4 eexists. split; [vm_compute; reflexivity|]. split; [reflexivity|]. split; [reflexivity|]. split; [|split].
  - repeat constructor; cbn.
    + intros f H. repeat (destruct H as [H|H]; [discriminate H|]). exact H.
    + intros s' u l w H. repeat (destruct H as [H|H]; [try discriminate H|]); [|destruct H]. injection H as _ <- _ _. exists 99, []. split; [reflexivity|]. left. right. now split.
    + intros f H. repeat (destruct H as [H|H]; [discriminate H|]). exact H.
    + intros s' u l w H. repeat (destruct H as [H|H]; [try discriminate H|]); [|destruct H]. injection H as _ <- _ _. exists 63, []. split; [reflexivity|]. now right.
  - repeat constructor; intros s u l w H; cbn in H; repeat (destruct H as [H|H]; [discriminate H|]); destruct H.
  - assert (NR : forall s, reached_without false (word_letter asc_punct asc_space) at_m1 0 s -> s = 0).
    { intros s H. induction H as [|s s' u l w H IH Hl Hc]; [reflexivity|]. subst s. cbn in Hl. repeat (destruct Hl as [Hl|Hl]; [try discriminate Hl|]); [|destruct Hl].
      injection Hl as _ <- _ _. exfalso. apply (Hc 99); [now left|]. right. now split. }
    apply (wa_cons _ _ at_m1 0 1 2 [SChar 97; SChar 116] [SChar 97; SChar 116] 0 [] _ 0); [intros H; apply NR in H; discriminate|right; now left|].
    apply (wa_cons _ _ at_m1 0 2 3 [] [STag (txt "<n>")] 0 [] [] 0); [intros H; apply NR in H; discriminate|do 2 right; now left|]. constructor.
Qed.

(** *** What does not hold *)
(** A single transducer whose first line does not leave state 0 gives an empty section. *)
Definition st_rows : list (list ustr) := [[txt "1"; txt "2"; txt "a"; txt "a"]; [txt "2"]].
Definition st_m : list line := [LArc 1 2 [SChar 97] [SChar 97] 0; LFinal 2 0].
Theorem C66_start_refuted : exists text m letters a t x, file_says false text [m] /\ fits [m] /\ means m x x 0
  /\ asc_compile false false false text = Ok (letters, a, [(main_name, t)]) /\ forall x y c, ~ section_means false t a x y c.
Proof.
  exists (flat_map line_text st_rows), st_m. do 3 eexists. exists [SChar 97]. split; [|split; [reflexivity|split; [|split; [vm_compute; reflexivity|]]]].
  - easy_file st_rows st_m; easy_line; colc [97].
  - exists 2, 0, 0. split; [|split; [|reflexivity]].
    + apply (walk_cons st_m 1 2 [SChar 97] [SChar 97] 0 [] [] 0); [now left|constructor].
    + repeat (apply fl_later; [intros ? XX; discriminate XX|]). apply fl_here.
  - intros x y c (tr & f & (q & _ & []) & _).
Qed.
(** Of two lines for the same transition only the first weight is kept. *)
Definition wt_rows : list (list ustr) := [[txt "0"; txt "1"; txt "a"; txt "a"; txt "1"]; [txt "0"; txt "1"; txt "a"; txt "a"; txt "2"]; [txt "1"]].
Definition wt_m : list line := [LArc 0 1 [SChar 97] [SChar 97] 1000000; LArc 0 1 [SChar 97] [SChar 97] 2000000; LFinal 1 0].
Theorem C66_weights_refuted : exists text m letters a t x c, file_says false text [m] /\ fits [m] /\ start_of m = 0 /\ means m x x c
  /\ asc_compile false false false text = Ok (letters, a, [(main_name, t)]) /\ ~ section_means false t a x x c.
Proof.
  exists (flat_map line_text wt_rows), wt_m. do 3 eexists. exists [SChar 97], 2000000. split; [|split; [reflexivity|split; [reflexivity|split; [|split; [vm_compute; reflexivity|]]]]].
  - easy_file wt_rows wt_m; easy_line; try colc [97].
    + apply (am_whole (txt "1") 1). num.
    + apply (am_whole (txt "2") 2). num.
  - exists 1, 2000000, 0. split; [|split; [|reflexivity]].
    + apply (walk_cons wt_m 0 1 [SChar 97] [SChar 97] 2000000 [] [] 0); [right; now left|constructor].
    + repeat (apply fl_later; [intros ? XX; discriminate XX|]). apply fl_here.
  - intros (tr & f & (q & T & F) & _ & _ & W). destruct F as [F|[]]. injection F as <- <-. cbn [initial] in T.
    inversion T as [|p a0 x w q tr0 r HA HD T']; subst. cbn in HA. destruct HA as [HA|[]]. injection HA as <- <- <-.
    inversion T' as [|p a1 x' w' q' tr1 r' HA' HD' T'']; subst; [discriminate W|]. cbn in HA'. destruct HA'.
Qed.
(** A word that begins with punctuation is lost when it goes on, with a letter, to states where
    words go: "?zab" is in neither section though "zab" is. *)
Definition lo_rows : list (list ustr) := [[txt "0"; txt "1"; txt "?"; txt "?"]; [txt "0"; txt "2"; txt "z"; txt "z"]; [txt "1"; txt "2"; txt "z"; txt "z"];
  [txt "2"; txt "3"; txt "a"; txt "a"]; [txt "3"; txt "4"; txt "b"; txt "b"]; [txt "4"]].
Definition lo_m : list line := [LArc 0 1 [SChar 63] [SChar 63] 0; LArc 0 2 [SChar 122] [SChar 122] 0; LArc 1 2 [SChar 122] [SChar 122] 0;
  LArc 2 3 [SChar 97] [SChar 97] 0; LArc 3 4 [SChar 98] [SChar 98] 0; LFinal 4 0].
Lemma lo_says : file_says false (flat_map line_text lo_rows) [lo_m].
Proof. easy_file lo_rows lo_m; easy_line; solve [colc [63] | colc [122] | colc [97] | colc [98]]. Qed.
Lemma lo_start : Forall (plain_start false asc_punct asc_space) [lo_m] /\ Forall fresh_start [lo_m].
Proof.
  split; repeat constructor.
  - intros f H. cbn in H. repeat (destruct H as [H|H]; [discriminate H|]). exact H.
  - intros s' u l w H. cbn in H. repeat (destruct H as [H|H]; [try discriminate H|]); [| |destruct H].
    + injection H as _ <- _ _. exists 63, []. split; [reflexivity|]. now right.
    + injection H as _ <- _ _. exists 122, []. split; [reflexivity|]. left. right. now split.
  - intros s u l w H. cbn in H. repeat (destruct H as [H|H]; [discriminate H|]). destruct H.
Qed.
Theorem C66_split_refuted : exists text m letters a secs x, file_says false text [m] /\ fits [m] /\ start_of m = 0
  /\ plain_start false asc_punct asc_space m /\ means m x x 0
  /\ asc_compile false false true text = Ok (letters, a, secs) /\ forall name t c, In (name, t) secs -> ~ section_means false t a x x c.
Proof.
  exists (flat_map line_text lo_rows), lo_m. do 3 eexists. exists (map SChar (txt "?zab")). split; [exact lo_says|]. split; [reflexivity|]. split; [reflexivity|].
  split; [exact (Forall_inv (proj1 lo_start))|]. split; [|split].
  - exists 4, 0, 0. split; [|split; [|reflexivity]].
    + apply (walk_cons lo_m 0 1 [SChar 63] [SChar 63] 0 _ _ 0); [now left|]. apply (walk_cons lo_m 1 2 [SChar 122] [SChar 122] 0 _ _ 0); [do 2 right; now left|].
      apply (walk_cons lo_m 2 3 [SChar 97] [SChar 97] 0 _ _ 0); [do 3 right; now left|]. apply (walk_cons lo_m 3 4 [SChar 98] [SChar 98] 0 [] [] 0); [do 4 right; now left|constructor].
    + repeat (apply fl_later; [intros ? XX; discriminate XX|]). apply fl_here.
  - vm_compute. reflexivity.
  - intros name t c Ht Hs. cbn [In] in Ht. destruct Ht as [Ht|[Ht|[]]].
    + injection Ht as _ <-. destruct Hs as (tr & f & (q & _ & []) & _).
    + assert (EN : name = main_name) by (injection Ht as <- _; reflexivity). subst name. destruct (C66_parts asc_punct asc_space asc_lower asc_upper asc_toupper asc_tolower false false _ [lo_m] _ _ _ lo_says eq_refl
        ltac:(intros m [= <-]; reflexivity) (proj1 lo_start) (proj2 lo_start) ltac:(vm_compute; reflexivity)) as [K _].
      destruct (K t _ _ c ltac:(right; left; exact Ht) Hs) as (d & r & E & Hd). vm_compute in E. injection E as <- _.
      vm_compute in Hd. repeat (destruct Hd as [Hd|Hd]; [discriminate Hd|]). exact Hd.
Qed.
(** A file that accepts the empty word cannot be compiled unless splitting is off. *)
Definition em_rows : list (list ustr) := [[txt "0"; txt "1"; txt "a"; txt "a"]; [txt "0"]; [txt "1"]].
Definition em_m : list line := [LArc 0 1 [SChar 97] [SChar 97] 0; LFinal 0 0; LFinal 1 0].
Theorem C66_empty_refuted : exists text m, file_says false text [m] /\ fits [m] /\ start_of m = 0 /\ means m [] [] 0
  /\ asc_compile false false true text = Exit /\ exists r, asc_compile false false false text = Ok r.
Proof.
  exists (flat_map line_text em_rows), em_m. split; [|split; [reflexivity|split; [reflexivity|split; [|split; [vm_compute; reflexivity|]]]]].
  - easy_file em_rows em_m; easy_line; colc [97].
  - exists 0, 0, 0. split; [constructor|split; [|reflexivity]]. apply fl_later; [intros ? XX; discriminate XX|]. apply fl_here.
  - eexists. vm_compute. reflexivity.
Qed.
(** A letter beyond the Basic Multilingual Plane is cut down to 16 bits: U+10400 (Deseret) makes
    U+0400 (Cyrillic) a letter, and is none itself. *)
Definition be_rows : list (list ustr) := [[txt "0"; txt "1"; utf16 66560; utf16 66560]; [txt "1"]].
Definition be_m : list line := [LArc 0 1 [SChar 66560] [SChar 66560] 0; LFinal 1 0].
Theorem C66_letters_refuted : exists text m letters a secs, file_says false text [m] /\ fits [m] /\ start_of m = 0
  /\ asc_compile false false true text = Ok (letters, a, secs)
  /\ (exists l c, In l m /\ In (SChar c) (line_chars l) /\ letter_of asc_punct asc_space asc_lower asc_upper asc_toupper asc_tolower c c /\ ~ In c letters)
  /\ (exists v, In v letters /\ ~ exists l c, In l m /\ In (SChar c) (line_chars l) /\ letter_of asc_punct asc_space asc_lower asc_upper asc_toupper asc_tolower c v).
Proof.
  exists (flat_map line_text be_rows), be_m. do 3 eexists. split; [|split; [reflexivity|split; [reflexivity|split; [vm_compute; reflexivity|split]]]].
  - easy_file be_rows be_m; easy_line; colc [66560].
  - exists (LArc 0 1 [SChar 66560] [SChar 66560] 0), 66560. split; [now left|]. split; [now left|]. split.
    + split; [right; now split|now left].
    + intros [H|[]]. discriminate H.
  - exists 1024. split; [now left|]. intros (l & c & Hl & Hc & _ & K). cbn in Hl. destruct Hl as [<-|[<-|[]]]; [|destruct Hc].
    cbn in Hc. destruct Hc as [[= <-]|[[= <-]|[]]]; (destruct K as [K|[[K _]|(_ & K & _)]]; discriminate K).
Qed.

Print Assumptions C66_compile.
Print Assumptions C66_letters.
Print Assumptions C66_split_sound.
Print Assumptions C66_split.
Print Assumptions C66_parts.
Print Assumptions C66_start_refuted.
Print Assumptions C66_weights_refuted.
Print Assumptions C66_split_refuted.
Print Assumptions C66_empty_refuted.
Print Assumptions C66_letters_refuted.
