(** C33: weights of entries. *)
From Verif Require Import Base AlphabetModel AlphabetProofs AlphabetProps TransducerModel TransducerSpec
  TransducerProofs AutomataProps RegexpProps CompilerModel CompilerSpec CompilerProofs CompilerWeightProofs CompilerProps WeightSetProofs.

Lemma pairs_unique : forall {A} (R : A -> A -> Prop) l, (forall x, ~ R x x) -> (forall x y, R x y -> R y x) -> ForallOrdPairs R l ->
  forall x y, In x l -> In y l -> x = y \/ R x y.
Proof.
  intros A R l Irr Sym H. induction H as [|z l Hz H IH]; intros x y Hx Hy; [destruct Hx|]. rewrite Forall_forall in Hz.
  destruct Hx as [<-|Hx], Hy as [<-|Hy]; auto.
Qed.
Lemma apart_word : forall x, ~ apart x x.
Proof. intros x [H _]. apply H. exists []. now rewrite app_nil_r. Qed.
Lemma fop_unique : forall {A B} (R : B -> B -> Prop) (f : A -> B) l, (forall x, ~ R x x) -> (forall x y, R x y -> R y x) ->
  ForallOrdPairs R (map f l) -> forall x y, In x l -> In y l -> f x = f y -> x = y.
Proof.
  intros A B R f l Irr Sym. induction l as [|z l IH]; intros H x y Hx Hy E; [destruct Hx|]. cbn [map] in H. inversion H as [|? ? H1 H2]. subst.
  rewrite Forall_forall in H1. destruct Hx as [<-|Hx], Hy as [<-|Hy]; auto.
  - exfalso. apply (Irr (f y)). rewrite <- E at 1. apply H1. now apply in_map.
  - exfalso. apply (Irr (f x)). rewrite E at 1. apply H1. now apply in_map.
Qed.

(** A section of literal entries, none of which is a beginning of another: every entry has
    its own weight and no other, whatever the order. *)
Theorem C33_apart : forall ops s name es, acx s = [] -> sep s = None -> es <> [] ->
  Forall literal_ok es -> ForallOrdPairs apart (map (literal_word (lr s)) es) ->
  exists a t, compile s (after ops) (dict_events [Sec name (map literal es)]) = Ok (a, [(name, t)]) /\ wf t
    /\ (forall u c, wlang t 0 u c <->
          exists x, In x es /\ literal_weight x = c /\ Forall2 (fun tag p => decode tag a = Ok p) u (literal_word (lr s) x))
    /\ forall x, In x es -> exists u, Forall2 (fun tag p => decode tag a = Ok p) u (literal_word (lr s) x)
         /\ forall c, wlang t 0 u c <-> c = literal_weight x.
Proof.
  intros ops s name es Hx Hs Ne Lo Ap.
  destruct (compile_literals s (after ops) name es Hx Hs (after_inv ops) Ne Lo Ap) as (a & t & E & Ha & X & W & L).
  exists a, t. split; [exact E|]. split; [exact W|]. split; [exact L|]. intros x Hin.
  assert (Hd : dict_ok (lr s) (fun _ => no_words) [] [Sec name (map literal es)]).
  { cbn [dict_ok]. split; [|exact I]. rewrite Forall_forall in *. intros els He. apply in_map_iff in He as (y & <- & Hy).
    specialize (Lo y Hy). destruct y as [[pi pd] w]. destruct Lo as (L1 & L2 & _). cbn. auto. }
  destruct (C32_sections ops s _ Hx Hs Hd) as (a2 & m & E2 & _ & _ & _ & H2).
  assert (Ea : a2 = a) by congruence. assert (Em : m = [(name, t)]) by congruence. subst a2 m.
  destruct (H2 name (literal_word (lr s) x)) as (t' & u & Hi & _ & R).
  { left. split; [reflexivity|]. exists (literal x). split; [now apply in_map|]. destruct x as [[pi pd] w]. cbn [literal entry_set element_set literal_word].
    eexists _, []. rewrite app_nil_r. split; [reflexivity|]. auto. }
  exists u. split; [exact R|]. intros c. rewrite L. split.
  - intros (y & Hy & <- & Ry). assert (Ew := forall2_decode_unique a u _ _ Ry R).
    f_equal. revert Ew. apply (fop_unique apart (literal_word (lr s)) es); auto; [apply apart_word|]. intros v w [P Q]. split; assumption.
  - intros ->. exists x. auto.
Qed.
(** ab with weight 1, ac with weight 2 and b with weight 3 *)
Example C33_apart_example : exists a t, compile plain new_alphabet
    (dict_events [Sec [109] (map literal [([97; 98], [97; 98], 1); ([97; 99], [97; 99], 2); ([98], [98], 3)])]) = Ok (a, [([109], t)])
  /\ wlang t 0 [1; 2] 1 /\ wlang t 0 [1; 3] 2 /\ wlang t 0 [2] 3.
Proof.
  eexists _, _. split; [vm_compute; reflexivity|]. split; [|split].
  - exists [(1, 0); (2, 1)], 0. split; [exists 2%nat; split; [run|vm_compute; tauto]|split; reflexivity].
  - exists [(1, 0); (3, 2)], 0. split; [exists 2%nat; split; [run|vm_compute; tauto]|split; reflexivity].
  - exists [(2, 3)], 0. split; [exists 2%nat; split; [run|vm_compute; tauto]|split; reflexivity].
Qed.

(** An entry that is the beginning of another: ab with weight 1 before abc with weight 2 adds
    its weight to it; after it, it has no weight. *)
Definition short : list Z * list Z * Z := ([97; 98], [97; 98], 1).
Definition long : list Z * list Z * Z := ([97; 98; 99], [97; 98; 99], 2).
Theorem C33_prefix_refuted :
  (exists a t, compile plain new_alphabet (dict_events [Sec [109] (map literal [short; long])]) = Ok (a, [([109], t)])
    /\ spairinv a = [(0, 0); (97, 97); (98, 98); (99, 99)] /\ (forall c, wlang t 0 [1; 2; 3] c <-> c = 3) /\ forall c, wlang t 0 [1; 2] c <-> c = 1)
  /\ exists a t, compile plain new_alphabet (dict_events [Sec [109] (map literal [long; short])]) = Ok (a, [([109], t)])
    /\ spairinv a = [(0, 0); (97, 97); (98, 98); (99, 99)] /\ (forall c, wlang t 0 [1; 2; 3] c <-> c = 2) /\ forall c, wlang t 0 [1; 2] c <-> c = 0.
Proof.
  split; (eexists _, _; split; [vm_compute; reflexivity|]; split; [reflexivity|]; split; intros c; split).
  all: try (intros (l & f & (q & Hp & Hf) & Hw & Hc); unfold final_wt in Hf; cbn in Hp; path_cases; cbn in *; try discriminate; try lia).
  - intros ->. exists [(1, 0); (2, 1); (3, 2)], 0. split; [exists 3%nat; split; [run|vm_compute; tauto]|split; reflexivity].
  - intros ->. exists [(1, 0); (2, 1)], 0. split; [exists 2%nat; split; [run|vm_compute; tauto]|split; reflexivity].
  - intros ->. exists [(1, 0); (2, 0); (3, 2)], 0. split; [exists 3%nat; split; [run|vm_compute; tauto]|split; reflexivity].
  - intros ->. exists [(1, 0); (2, 0)], 0. split; [exists 2%nat; split; [run|vm_compute; tauto]|split; reflexivity].
Qed.
(** Every literal element of an entry carries the weight of the entry (compiler.cc:865-873):
    written as two elements, ab with weight 1 weighs 2. *)
Theorem C33_elements_refuted :
  exists a t, compile plain new_alphabet (dict_events [Sec [109] [[Single [97] [97] 1; Single [98] [98] 1]]]) = Ok (a, [([109], t)])
    /\ forall c, wlang t 0 [1; 2] c <-> c = 2.
Proof.
  eexists _, _; split; [vm_compute; reflexivity|]. intros c; split.
  - intros (l & f & (q & Hp & Hf) & Hw & Hc); unfold final_wt in Hf; cbn in Hp; path_cases; cbn in *; try discriminate; try lia.
  - intros ->. exists [(1, 1); (2, 1)], 0. split; [exists 2%nat; split; [run|vm_compute; tauto]|split; reflexivity].
Qed.

(** * No weight is invented *)
Inductive sum_of (ws : list Z) : Z -> Prop :=
| sum_none : sum_of ws 0
| sum_add w c : In w ws -> sum_of ws c -> sum_of ws (w + c).
(** The weights written in a dictionary *)
Definition token_weights (x : entry_token) : list Z := match x with Single _ _ w => [w] | _ => [] end.
Definition declared (evs : list event) : list Z :=
  flat_map (fun e => match e with Entry els => flat_map token_weights els | _ => [] end) evs.

Lemma sum_of_add : forall ws x y, sum_of ws x -> sum_of ws y -> sum_of ws (x + y).
Proof.
  intros ws x y H Hy. induction H as [|w c Hw H IH]; [exact Hy|]. rewrite <- Z.add_assoc. now constructor.
Qed.
Lemma declared_in : forall evs, Forall (event_in (sum_of (declared evs))) evs.
Proof.
  intros evs. apply Forall_forall. intros e He. destruct e as [| | | |els]; try exact I. cbn. apply Forall_forall. intros x Hx.
  destruct x as [pi pd w| |]; try exact I. cbn. rewrite <- (Z.add_0_r w). constructor; [|constructor].
  apply in_flat_map. exists (Entry els). split; [exact He|]. apply in_flat_map. exists (Single pi pd w). split; [exact Hx|now left].
Qed.

(** Whatever the dictionary, the direction and the settings, the weight of every accepted
    word is a sum of weights written in the dictionary. *)
Theorem C33_sums : forall s a evs a' m name t u c, compile s a evs = Ok (a', m) -> In (name, t) m ->
  wlang t 0 u c -> sum_of (declared evs) c.
Proof.
  intros s a evs a' m name t u c E Hin H.
  pose proof (compile_in (sum_of (declared evs)) (sum_none _) s a evs a' m (declared_in evs) E) as N.
  unfold named_in in N. rewrite Forall_forall in N.
  exact (within_wlang _ (sum_none _) (sum_of_add _) t 0 u c (N _ Hin) H).
Qed.
(** Without weights in the dictionary every word weighs 0. *)
Theorem C33_unweighted : forall s a evs a' m name t u, compile s a evs = Ok (a', m) -> In (name, t) m ->
  Forall (fun w => w = 0) (declared evs) ->
  (forall c, wlang t 0 u c -> c = 0) /\ (lang t 0 u <-> wlang t 0 u 0).
Proof.
  intros s a evs a' m name t u E Hin H.
  assert (Z0 : forall c, wlang t 0 u c -> c = 0).
  { intros c Hc. apply (C33_sums _ _ _ _ _ _ _ _ _ E Hin) in Hc. rewrite Forall_forall in H.
    induction Hc as [|w c Hw Hc IH]; [reflexivity|]. rewrite (H w Hw), IH. reflexivity. }
  split; [exact Z0|]. split; [|intros L; now exists 0]. intros (c & Hc). rewrite (Z0 c Hc) in Hc. exact Hc.
Qed.
Example C33_sums_example : exists a t, compile plain new_alphabet
    (dict_events [Pardef [110] [[Single [115] [60] 3]; [Single [116] [60] 5]]; Sec [109] [[Single [99] [99] 7; Paradigm [110]]]])
    = Ok (a, [([109], t)])
  /\ wlang t 0 [3; 1] 10 /\ wlang t 0 [3; 2] 12
  /\ declared (dict_events [Pardef [110] [[Single [115] [60] 3]; [Single [116] [60] 5]]; Sec [109] [[Single [99] [99] 7; Paradigm [110]]]]) = [3; 5; 7].
Proof.
  eexists _, _; split; [vm_compute; reflexivity|]. split; [|split; [|reflexivity]].
  - exists [(3, 7); (1, 3)], 0. split; [exists 2%nat; split; [run|vm_compute; tauto]|split; reflexivity].
  - exists [(3, 7); (2, 5)], 0. split; [exists 2%nat; split; [run|vm_compute; tauto]|split; reflexivity].
Qed.
Example C33_unweighted_example : exists a t, compile plain new_alphabet (dict_events sample) = Ok (a, [([109], t)])
  /\ wlang t 0 [3; 4; 1] 0 /\ forall c, wlang t 0 [3; 4; 1] c -> c = 0.
Proof.
  destruct sample_words as (a & t & E & L & _). exists a, t. split; [exact E|].
  destruct (C33_unweighted _ _ _ _ _ _ _ [3; 4; 1] E (or_introl eq_refl)) as [U V].
  - vm_compute. repeat constructor.
  - split; [now apply V|exact U].
Qed.

Print Assumptions C33_apart.
Print Assumptions C33_sums.
Print Assumptions C33_unweighted.
Print Assumptions C33_prefix_refuted.
Print Assumptions C33_elements_refuted.
