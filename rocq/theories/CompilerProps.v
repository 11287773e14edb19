(** C32: the sections of a compiled dictionary accept exactly what the dictionary says. *)
From Coq Require Import Permutation.
From Verif Require Import Base AlphabetModel AlphabetProofs AlphabetProps TransducerModel TransducerSpec
  TransducerProofs AutomataProps RegexpModel RegexpSpec RegexpProofs RegexpProps TrieProofs CompilerModel CompilerSpec CompilerProofs.

Lemma name_find_in : forall {V} (m : list (ustr * V)) k v, name_find k m = Some v -> In (k, v) m.
Proof.
  intros V m k v. induction m as [|[k0 v0] m IH]; cbn [name_find]; [discriminate|].
  destruct (ustr_eq_dec k k0) as [->|]; [intros [= ->]; now left|]. intros H. right. auto.
Qed.

(** For every dictionary whose paradigms are defined once and before use (and the other
    conditions of [dict_ok]), compilation succeeds, no section is stored twice, codes of the
    given alphabet keep their meaning, and the stored section [name] accepts the tag strings
    of the words of the section [name], which is not stored only when it has none. *)
Theorem C32_sections : forall ops s items, acx s = [] -> sep s = None -> dict_ok (lr s) (fun _ => no_words) [] items ->
  exists a m, compile s (after ops) (dict_events items) = Ok (a, m)
    /\ NoDup (map fst m)
    /\ (forall tag p, decode tag (after ops) = Ok p -> decode tag a = Ok p)
    /\ (forall name t, In (name, t) m -> wf t
          /\ forall u, lang t 0 u <->
               exists w, section_set (lr s) (fun _ => no_words) items name w /\ Forall2 (fun tag p => decode tag a = Ok p) u w)
    /\ (forall name w, section_set (lr s) (fun _ => no_words) items name w ->
          exists t u, In (name, t) m /\ lang t 0 u /\ Forall2 (fun tag p => decode tag a = Ok p) u w).
Proof.
  intros ops s items Hx Hs Ho.
  destruct (compile_ok s (after ops) items Hx Hs (after_inv ops) Ho) as (a & m & E & Ha & X & N & H).
  exists a, m. split; [exact E|]. split; [exact N|]. split; [intros tag p Hp; exact (extends_decode _ _ _ _ X Hp)|]. split.
  - intros name t Hin. apply (name_in_find _ _ _ N) in Hin. destruct (H name) as [_ Hn]. rewrite Hin in Hn.
    destruct Hn as (W & _ & L & _). split; [exact W|]. exact L.
  - intros name w Hw. destruct (H name) as [Cv Hn]. destruct (name_find name m) as [t|] eqn:Ef; [|now apply Hn in Hw].
    destruct Hn as (W & _ & L & _). destruct (Tg_some a _ w Cv Hw) as (u & Hu & R). exists t, u.
    split; [exact (name_find_in _ _ _ Ef)|]. split; [now apply L|exact R].
Qed.

(** The order of the entries within paradigms and sections does not change the words. *)
Inductive reordered : item -> item -> Prop :=
| re_pardef n es es' : Permutation es es' -> reordered (Pardef n es) (Pardef n es')
| re_sec n es es' : Permutation es es' -> reordered (Sec n es) (Sec n es').
Lemma entries_reordered : forall lr env env' es es', Permutation es es' -> (forall n w, env n w <-> env' n w) ->
  forall w, entries_set lr env es w <-> entries_set lr env' es' w.
Proof.
  intros lr env env' es es' P He.
  assert (El : forall el w, element_set lr env el w <-> element_set lr env' el w) by (intros [] w; cbn; [reflexivity|apply He|reflexivity]).
  assert (En : forall els w, entry_set lr env els w <-> entry_set lr env' els w).
  { induction els as [|el els IH]; intros w; cbn [entry_set]; [reflexivity|]. apply cat_iff; auto. }
  intros w. split; intros (els & Hi & Hw); exists els; (split; [|now apply En]).
  - exact (Permutation_in _ P Hi).
  - exact (Permutation_in _ (Permutation_sym P) Hi).
Qed.
Lemma sections_reordered : forall lr items items', Forall2 reordered items items' -> forall env env', (forall n w, env n w <-> env' n w) ->
  forall name w, section_set lr env items name w <-> section_set lr env' items' name w.
Proof.
  intros lr items items' F. induction F as [|i i' items items' R F IH]; intros env env' He name w; [reflexivity|].
  destruct R as [n es es' P|n es es' P]; cbn [section_set].
  - apply IH. intros m v. unfold define. destruct (ustr_eq_dec m n); [|apply He]. now apply entries_reordered.
  - unfold join_sets. rewrite (IH env env' He name w), (entries_reordered lr env env' es es' P He w). reflexivity.
Qed.
Lemma dict_ok_reordered : forall lr items items', Forall2 reordered items items' -> forall env env' D, (forall n w, env n w <-> env' n w) ->
  dict_ok lr env D items -> dict_ok lr env' D items'.
Proof.
  intros lr items items' F. induction F as [|i i' items items' R F IH]; intros env env' D He Ho; [exact I|].
  assert (Eo : forall els, entry_ok env D els -> entry_ok env' D els).
  { induction els as [|el els IHe]; [trivial|]. intros [H1 H2]. split; [|auto]. destruct el as [l r v|n|er]; cbn [element_ok] in *; auto.
    destruct H1 as [H1 H3]. split; [exact H1|]. intros E. destruct (H3 E) as (N & HN). exists N. intros w Hw. apply HN. now apply He. }
  assert (Es : forall es es', Permutation es es' -> Forall (entry_ok env D) es -> Forall (entry_ok env' D) es').
  { intros es es' P H. rewrite Forall_forall in *. intros x Hx. apply Eo, H. exact (Permutation_in _ (Permutation_sym P) Hx). }
  destruct R as [n es es' P|n es es' P]; cbn [dict_ok] in *.
  - destruct Ho as (H1 & H2 & H3 & H4 & H5). do 2 (split; [assumption|]). split; [exact (Es _ _ P H3)|]. split.
    + destruct F as [|j j' l l' Rj F]; [exact I|]. destruct Rj; [exact I|]. destruct H4 as (w & Hw). exists w.
      now apply (entries_reordered lr env env' es es' P He).
    + apply (IH (define n (entries_set lr env es) env)); [|exact H5]. intros m v. unfold define.
      destruct (ustr_eq_dec m n); [|apply He]. now apply entries_reordered.
  - destruct Ho as [H1 H2]. split; [exact (Es _ _ P H1)|exact (IH env env' D He H2)].
Qed.
(** [u] in the section [name] of one result means the word [w]. *)
Definition means (a : alphabet) (m : list (ustr * transducer)) (name : ustr) (w : list (Z * Z)) : Prop :=
  exists t u, In (name, t) m /\ lang t 0 u /\ Forall2 (fun tag p => decode tag a = Ok p) u w.
Lemma forall2_decode_unique : forall a u w w', Forall2 (fun tag p => decode tag a = Ok p) u w -> Forall2 (fun tag p => decode tag a = Ok p) u w' -> w = w'.
Proof.
  intros a u w w' H. revert w'. induction H as [|tag p u w Hp H IH]; intros w' H'; inversion H'; subst; [reflexivity|]. f_equal; [congruence|auto].
Qed.
Theorem C32_order : forall ops s items items', acx s = [] -> sep s = None -> dict_ok (lr s) (fun _ => no_words) [] items ->
  Forall2 reordered items items' ->
  exists a m a' m', compile s (after ops) (dict_events items) = Ok (a, m) /\ compile s (after ops) (dict_events items') = Ok (a', m')
    /\ forall name w, means a m name w <-> means a' m' name w.
Proof.
  intros ops s items items' Hx Hs Ho F.
  assert (Ho' := dict_ok_reordered (lr s) items items' F _ _ [] (fun n w => iff_refl (no_words w)) Ho).
  destruct (C32_sections ops s items Hx Hs Ho) as (a & m & E & _ & _ & H1 & H2).
  destruct (C32_sections ops s items' Hx Hs Ho') as (a' & m' & E' & _ & _ & H1' & H2').
  exists a, m, a', m'. split; [exact E|]. split; [exact E'|]. intros name w.
  assert (S := sections_reordered (lr s) items items' F (fun _ => no_words) (fun _ => no_words) (fun n w => iff_refl (no_words w)) name w).
  split; intros (t & u & Hin & Lu & D).
  - apply (H1 name t Hin) in Lu as (w' & Hw & D'). assert (w' = w) as -> by exact (forall2_decode_unique a u w' w D' D).
    destruct (H2' name w (proj1 S Hw)) as (t' & u' & X). exists t', u'. exact X.
  - apply (H1' name t Hin) in Lu as (w' & Hw & D'). assert (w' = w) as -> by exact (forall2_decode_unique a' u w' w D' D).
    destruct (H2 name w (proj2 S Hw)) as (t' & u' & X). exists t', u'. exact X.
Qed.

(** A paradigm that has not been defined, or that is used within itself, ends the program,
    whatever follows. *)
Definition not_paradigm (el : entry_token) : Prop := match el with Paradigm _ => False | _ => True end.
Lemma scan_exit : forall c pre n els, Forall not_paradigm pre -> name_find n (c_pars c) = None \/ (n = current_paradigm c /\ n <> []) ->
  scan_entry c (pre ++ Paradigm n :: els) = Exit.
Proof.
  intros c pre n els F H. induction F as [|el pre Hel F IH]; cbn [app].
  - cbn [scan_entry]. destruct (current_paradigm c) as [|x q] eqn:Ec.
    + cbn [obind]. destruct H as [-> | [-> ?]]; [reflexivity|contradiction].
    + destruct (ustr_eq_dec n (x :: q)) as [->|Ne]; [reflexivity|]. cbn [obind]. destruct H as [-> |[H _]]; [reflexivity|contradiction].
  - destruct el; [exact IH|destruct Hel|exact IH].
Qed.
Lemma procs_entry : forall s evs c c1 els rest, procs s evs c = Ok c1 -> scan_entry c1 els = Exit ->
  procs s (evs ++ Entry els :: rest) c = Exit.
Proof. intros s evs c c1 els rest E H. rewrite procs_app, E. cbn [obind procs proc]. now rewrite H. Qed.
Lemma dict_known : forall ops s items, acx s = [] -> sep s = None -> dict_ok (lr s) (fun _ => no_words) [] items ->
  exists c, procs s (dict_events items) (new_compiler (after ops)) = Ok c
    /\ forall n, ~ In n (pardef_names items) -> name_find n (c_pars c) = None.
Proof.
  intros ops s items Hx Hs Ho.
  destruct (items_ok s Hx Hs items (fun _ => no_words) [] (fun _ => no_words) (new_compiler (after ops))) as (c & env & D & E & B & X & U & I).
  - constructor; cbn.
    + apply after_inv.
    + intros n [].
    + constructor.
    + intros n. eexists. apply mid_new.
    + intros n _ w [].
    + discriminate.
  - intros n _. reflexivity.
  - destruct items as [|[]]; exact Logic.I || reflexivity.
  - exact Ho.
  - exists c. split; [exact E|]. intros n Hn. apply U. intros Hd. destruct (I n Hd) as [[]|H]. contradiction.
Qed.
Theorem C32_undefined : forall ops s items name pre n els rest, acx s = [] -> sep s = None ->
  dict_ok (lr s) (fun _ => no_words) [] items -> ~ In n (pardef_names items) -> Forall not_paradigm pre ->
  compile s (after ops) (dict_events items ++ SectionStart name :: Entry (pre ++ Paradigm n :: els) :: rest) = Exit.
Proof.
  intros ops s items name pre n els rest Hx Hs Ho Hn F.
  destruct (dict_known ops s items Hx Hs Ho) as (c & E & U). unfold compile. rewrite procs_app, E. cbn [obind procs proc].
  rewrite scan_exit; [reflexivity|exact F|]. left. now apply U.
Qed.
Theorem C32_self : forall ops s items n pre els rest, acx s = [] -> sep s = None ->
  dict_ok (lr s) (fun _ => no_words) [] items -> n <> [] -> Forall not_paradigm pre ->
  compile s (after ops) (dict_events items ++ PardefStart n :: Entry (pre ++ Paradigm n :: els) :: rest) = Exit.
Proof.
  intros ops s items n pre els rest Hx Hs Ho Hn F.
  destruct (dict_known ops s items Hx Hs Ho) as (c & E & U). unfold compile. rewrite procs_app, E. cbn [obind procs proc].
  rewrite scan_exit; [reflexivity|exact F|]. right. auto.
Qed.

(** ** A dictionary *)
(** An empty paradigm e, a paradigm n with s:< and :>, and a section with entries that share
    beginnings and endings. *)
Definition plain : settings := mkSet true [] None.
Definition sample : list item :=
  [ Pardef [101] [];
    Pardef [110] [[Single [115] [60] 0]; [Single [] [62] 0]];
    Sec [109] [ [Single [99; 97] [99; 97] 0; Paradigm [110]];
                [Paradigm [110]; Single [109] [109] 0];
                [Single [120] [120] 0; Paradigm [101]];
                [Single [99; 97; 98] [99] 0; Paradigm [110]];
                [Regexp [49; 43]] ] ].
Example sample_ok : dict_ok true (fun _ => no_words) [] sample.
Proof.
  assert (Bd : forall env, bounded (entries_set true env [[Single [115] [60] 0]; [Single [] [62] 0]])).
  { intros env. exists 1%nat. intros w (els & [<-|[<-|[]]] & u & v & -> & Hu & Hv); cbn in Hu, Hv; rewrite Hu, Hv; cbn; lia. }
  assert (Rx : exists r, g_alt r [49; 43] /\ Forall (fun c => c <> FIN_FICHERO) [49; 43] /\ choosable latin1 r).
  { exists (Plus (Chr 49)). split; [|split; [repeat constructor; discriminate|exact I]].
    apply g_one, g_term. change [49; 43] with ([49] ++ [43]). apply g_plus, g_chr, g_plain_char. cbn. lia. }
  unfold sample. cbn [dict_ok]. split; [discriminate|]. split; [cbn; tauto|]. split; [constructor|]. split; [exact I|].
  split; [discriminate|]. split; [cbn; intros [H|[]]; discriminate|]. split; [repeat constructor; cbn; lia|].
  split; [exists [(115, 60)], [Single [115] [60] 0]; split; [now left|]; exists [(115, 60)], []; repeat split|].
  split; [|exact I]. repeat apply Forall_cons; try apply Forall_nil; cbn [entry_ok element_ok].
  - split; [cbn; lia|]. split; [|exact I]. split; [cbn; auto|]. discriminate.
  - split; [|split; [cbn; lia|exact I]]. split; [cbn; auto|]. intros _. unfold define at 1. cbn. apply Bd.
  - split; [cbn; lia|]. split; [|exact I]. split; [cbn; auto|]. discriminate.
  - split; [cbn; lia|]. split; [|exact I]. split; [cbn; auto|]. discriminate.
  - auto.
Qed.
(** cas is read as ca<; nothing is left of the entry with the empty paradigm. *)
Ltac accepted l q := exists 0, l, 0; split; [exists q; split; [run|vm_compute; tauto]|split; reflexivity].
Example sample_words : exists a t, compile plain new_alphabet (dict_events sample) = Ok (a, [([109], t)])
  /\ lang t 0 [3; 4; 1] /\ lang t 0 [1; 5] /\ lang t 0 [3; 6; 7; 2]
  /\ spairinv a = [(0, 0); (115, 60); (0, 62); (99, 99); (97, 97); (109, 109); (97, 0); (98, 0); (49, 49)].
Proof.
  eexists _, _. split; [vm_compute; reflexivity|]. split; [|split; [|split]].
  - accepted [(3, 0); (4, 0); (1, 0)] 4%nat.
  - accepted [(1, 0); (5, 0)] 4%nat.
  - accepted [(3, 0); (6, 0); (7, 0); (2, 0)] 4%nat.
  - reflexivity.
Qed.
Example self_reference : compile plain new_alphabet [PardefStart [110]; Entry [Single [97] [97] 0; Paradigm [110]]; PardefEnd] = Exit.
Proof. exact (C32_self [] plain [] [110] [Single [97] [97] 0] [] [PardefEnd] eq_refl eq_refl I ltac:(discriminate) ltac:(repeat constructor)). Qed.

(** ** What the conditions exclude *)
(** A paradigm with a loop before the end of an entry: with P = a+, the entry P ab accepts
    ab, since the a after P runs into the loop. *)
Definition looping : list item :=
  [Pardef [80] [[Regexp [97; 43]]]; Sec [109] [[Paradigm [80]; Single [97; 98] [97; 98] 0]]].
Lemma plus_not_empty : forall lr env, ~ element_set lr env (Regexp [97; 43]) [].
Proof.
  intros lr env H.
  destruct (regexp_compiled new_alphabet [97; 43] (Plus (Chr 97))) as (a' & t & f & E & _ & _ & _ & _ & _ & S).
  - exact (after_inv []).
  - apply g_one, g_term. change [97; 43] with ([97] ++ [43]). apply g_plus, g_chr, g_plain_char. cbn. lia.
  - repeat constructor; discriminate.
  - exact I.
  - destruct (S lr env) as [_ L]. assert (Lt : lang t 0 []) by (apply L; exists []; split; [exact H|constructor]).
    vm_compute in E. assert (Et : t = mkT 0 [(4%nat, 0)]
      [[(0, (3%nat, 0))]; [(1, (2%nat, 0))]; [(0, (4%nat, 0))]; [(0, (1%nat, 0))]; [(0, (3%nat, 0))]]) by (apply (f_equal (fun o => match o with Ok (_, x) => x | _ => new_transducer end)) in E; symmetry; exact E).
    clear E. subst t. apply lang_reach in Lt as (q & Rq & (g & Hq)). destruct Hq as [Hq|[]]. assert (q = 4%nat) as -> by congruence.
    assert (Inv : forall u q, reach (mkT 0 [(4%nat, 0)]
      [[(0, (3%nat, 0))]; [(1, (2%nat, 0))]; [(0, (4%nat, 0))]; [(0, (1%nat, 0))]; [(0, (3%nat, 0))]]) 0 u q -> u = [] -> In q [0%nat; 3%nat; 1%nat]).
    { intros u q R. induction R as [|u p b w q R IH Ha]; intros Eu; [now left|]. apply app_eq_nil in Eu as [-> Eb].
      specialize (IH eq_refl). destruct IH as [<-|[<-|[<-|[]]]]; destruct Ha as [Ha|[]]; cbn in Ha |- *; injection Ha; intros; subst; auto; discriminate. }
    specialize (Inv [] 4%nat Rq eq_refl). cbn in Inv. lia.
Qed.
Theorem C32_loop_refuted : exists a t, compile plain new_alphabet (dict_events looping) = Ok (a, [([109], t)])
  /\ lang t 0 [1; 2] /\ Forall2 (fun tag p => decode tag a = Ok p) [1; 2] [(97, 97); (98, 98)]
  /\ ~ section_set true (fun _ => no_words) looping [109] [(97, 97); (98, 98)].
Proof.
  eexists _, _. split; [vm_compute; reflexivity|]. split; [accepted [(1, 0); (2, 0)] 2%nat|]. split; [repeat constructor|].
  cbn [section_set looping]. intros [[_ (els & [<-|[]] & u & v & E & Hu & (v1 & v2 & -> & Hv1 & ->))]|[]].
  cbn in Hv1. subst v1. cbn [element_set] in Hu. unfold define in Hu. cbn in Hu.
  destruct Hu as (els & [<-|[]] & u1 & u2 & -> & Hu1 & ->). rewrite app_nil_r in E.
  destruct u1 as [|x u1]; [now apply plus_not_empty in Hu1|]. apply (f_equal (@length _)) in E. cbn in E. rewrite app_length in E. cbn in E. lia.
Qed.
(** The name of an empty paradigm stays set: the entries of the next section go into that
    paradigm, and the section is lost. *)
Definition emptied : list item := [Pardef [80] []; Sec [109] [[Single [97] [97] 0]]].
Theorem C32_empty_paradigm_refuted : (exists a, compile plain new_alphabet (dict_events emptied) = Ok (a, []))
  /\ section_set true (fun _ => no_words) emptied [109] [(97, 97)].
Proof.
  split; [eexists; vm_compute; reflexivity|]. left. split; [reflexivity|]. exists [Single [97] [97] 0]. split; [now left|].
  exists [(97, 97)], []. repeat split.
Qed.
(** Alternative characters: an entry for e is to accept é on its left side too.  With ea and
    then é:e b, the second shares the state after é:e with the first, so e:e b is accepted,
    which is a variant of neither. *)
Inductive variant (alt : Z -> Z -> Prop) : list (Z * Z) -> list (Z * Z) -> Prop :=
| var_nil : variant alt [] []
| var_same p v w : variant alt v w -> variant alt (p :: v) (p :: w)
| var_alt l l' r v w : alt l l' -> variant alt v w -> variant alt ((l, r) :: v) ((l', r) :: w).
Definition accented : list item := [Sec [109] [[Single [101; 97] [101; 97] 0]; [Single [233; 98] [101; 98] 0]]].
Theorem C32_alternatives_refuted :
  let s := mkSet true [(101, [233])] None in
  exists a t, compile s new_alphabet (dict_events accented) = Ok (a, [([109], t)])
  /\ lang t 0 [1; 4] /\ Forall2 (fun tag p => decode tag a = Ok p) [1; 4] [(101, 101); (98, 98)]
  /\ ~ exists v, section_set true (fun _ => no_words) accented [109] v
         /\ variant (fun l l' => l = 101 /\ l' = 233) v [(101, 101); (98, 98)].
Proof.
  eexists _, _. split; [vm_compute; reflexivity|]. split; [accepted [(1, 0); (4, 0)] 2%nat|]. split; [repeat constructor|].
  intros (v & [[_ (els & [<-|[<-|[]]] & u & v' & -> & Hu & ->)]|[]] & V); cbn in Hu; rewrite Hu in V; cbn in V; clear Hu;
    inversion V; subst; clear V.
  - match goal with H : variant _ _ _ |- _ => inversion H; subst; lia end.
  - lia.
  - lia.
Qed.

Print Assumptions C32_sections.
Print Assumptions C32_order.
Print Assumptions C32_undefined.
Print Assumptions C32_self.
Print Assumptions C32_loop_refuted.
Print Assumptions C32_empty_paradigm_refuted.
Print Assumptions C32_alternatives_refuted.
