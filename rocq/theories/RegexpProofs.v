(** Proofs about the regular expression compiler: languages. *)
From Verif Require Import Base TransducerModel TransducerSpec TransducerProofs RationalSpec RationalProofs
  DeterminizeProofs ReverseProofs AlphabetModel AlphabetProofs AutomataProps RegexpModel RegexpSpec.

(** * Words of codes *)
Definition code (a : alphabet) (c : Z) : Z := fst (pair_code (c, c) a).
Definition codes (a : alphabet) (cs : list Z) : list Z :=
  map (code a) (filter (fun c => negb (c =? 0)) cs).

(** The weighted set of the code words of [L] *)
Definition W (a : alphabet) (L : str_set) : wset := fun w c => c = 0 /\ exists cs, L cs /\ w = codes a cs.

Lemma codes_app : forall a u v, codes a (u ++ v) = codes a u ++ codes a v.
Proof. intros. unfold codes. now rewrite filter_app, map_app. Qed.

Lemma W_cat : forall a L M w c,
  wcat (W a L) (W a M) w c <-> W a (fun x => exists u v, x = u ++ v /\ L u /\ M v) w c.
Proof.
  intros a L M w c. split.
  - intros [u c1 v c2 [-> (x & Hx & ->)] [-> (y & Hy & ->)]]. split; [reflexivity|]. exists (x ++ y).
    split; [exists x, y; auto|symmetry; apply codes_app].
  - intros [-> (x & (u & v & -> & Hu & Hv) & ->)]. rewrite codes_app. change 0 with (0 + 0).
    constructor; split; eauto.
Qed.
Lemma W_star : forall a L w c, wstar (W a L) w c <-> W a (star L) w c.
Proof.
  intros a L w c. split.
  - induction 1 as [|w c w' c' [-> (x & Hx & ->)] _ [-> (y & Hy & ->)]].
    + split; auto. exists []. split; [constructor|reflexivity].
    + split; auto. exists (x ++ y). split; [now constructor|now rewrite codes_app].
  - intros [-> (x & Hx & ->)]. induction Hx as [|u v Hu Hv IH]; [constructor|].
    rewrite codes_app. change 0 with (0 + 0). constructor; [split; eauto|exact IH].
Qed.
Lemma W_plus : forall a L w c,
  wplus (W a L) w c <-> W a (fun x => exists u v, x = u ++ v /\ L u /\ star L v) w c.
Proof.
  intros a L w c. split.
  - induction 1 as [w c [-> (x & Hx & ->)]|w c w' c' [-> (x & Hx & ->)] _ [-> (y & (u & v & -> & Hu & Hv) & ->)]].
    + split; auto. exists x. split; [|reflexivity]. exists x, []. split; [now rewrite app_nil_r|]. split; [auto|constructor].
    + split; auto. exists (x ++ u ++ v). split; [|symmetry; apply codes_app]. exists x, (u ++ v).
      split; [reflexivity|]. split; [exact Hx|now constructor].
  - intros [-> (x & (u & v & -> & Hu & Hv) & ->)]. revert u Hu.
    induction Hv as [|u' v Hu' Hv IH]; intros u Hu.
    + rewrite app_nil_r. constructor. split; eauto.
    + rewrite codes_app. change 0 with (0 + 0). constructor 2; [split; eauto|]. now apply IH.
Qed.
Lemma W_opt : forall a L w c, wopt (W a L) w c <-> W a (fun x => x = [] \/ L x) w c.
Proof.
  intros a L w c. split.
  - intros [|w' c' [-> (x & Hx & ->)]]; split; eauto.
  - intros [-> (x & [->|Hx] & ->)]; [constructor|]. constructor 2. split; eauto.
Qed.

(** The operations respect equality of languages. *)
Lemma wplus_mono : forall L M : wset, (forall w c, L w c -> M w c) -> forall w c, wplus L w c -> wplus M w c.
Proof. intros L M H w c. induction 1; [constructor|constructor 2]; auto. Qed.
Lemma wstar_mono : forall L M : wset, (forall w c, L w c -> M w c) -> forall w c, wstar L w c -> wstar M w c.
Proof. intros L M H w c. induction 1; constructor; auto. Qed.
Lemma wopt_mono : forall L M : wset, (forall w c, L w c -> M w c) -> forall w c, wopt L w c -> wopt M w c.
Proof. intros L M H w c []; constructor; auto. Qed.
Lemma wcat_mono : forall L M L' M' : wset, (forall w c, L w c -> L' w c) -> (forall w c, M w c -> M' w c) ->
  forall w c, wcat L M w c -> wcat L' M' w c.
Proof. intros L M L' M' H1 H2 w c []; constructor; auto. Qed.
Lemma wcat_assoc : forall L M N w c, wcat (wcat L M) N w c <-> wcat L (wcat M N) w c.
Proof.
  intros. split.
  - intros [u c1 v c2 [u1 d1 u2 d2 H1 H2] H3]. rewrite <- app_assoc, <- Z.add_assoc. constructor; [exact H1|now constructor].
  - intros [u c1 v c2 H1 [u1 d1 u2 d2 H2 H3]]. rewrite app_assoc, Z.add_assoc. constructor; [now constructor|exact H3].
Qed.

(** * Codes against a later alphabet *)
Lemma code_later : forall c a a', alph_inv a -> alph_inv a' -> extends (snd (pair_code (c, c) a)) a' ->
  fst (pair_code (c, c) a) = code a' c.
Proof.
  intros c a a' H H' E. assert (Hin := pair_in (c, c) a H). apply In_nth_error in Hin as [i Hi].
  rewrite (pair_code_fst a (c, c) i H Hi). apply (proj2 (extends_nth _ _ E)) in Hi.
  unfold code. now rewrite (proj1 (pair_code_nth a' (c, c) i H' Hi)).
Qed.
Lemma pair_code_zero : forall a, alph_inv0 a -> pair_code (0, 0) a = (0, a).
Proof. intros a [H H0]. exact (proj1 (pair_code_nth _ _ 0%nat H H0)). Qed.
Lemma code_nonzero : forall a c, alph_inv0 a -> In (c, c) (spairinv a) -> (code a c = 0 <-> c = 0).
Proof.
  intros a c [H H0] Hin. apply In_nth_error in Hin as [i Hi]. unfold code.
  rewrite (proj1 (pair_code_nth a _ i H Hi)). cbn [fst]. split.
  - intros E. assert (i = 0%nat) as -> by lia. congruence.
  - intros ->. assert (NoDup (spairinv a)) as N by apply H.
    assert (i = 0%nat); [|lia]. apply (proj1 (NoDup_nth_error _) N); [|congruence].
    apply nth_error_Some. congruence.
Qed.
Lemma extends_in : forall a b p, extends a b -> In p (spairinv a) -> In p (spairinv b).
Proof. intros a b p [_ [l ->]] H. apply in_or_app. now left. Qed.
(** The word of an arc for the symbol [c] *)
Lemma code_word : forall a c, alph_inv0 a -> In (c, c) (spairinv a) -> word_of 0 [(code a c, 0)] = codes a [c].
Proof.
  intros a c H Hin. assert (X := code_nonzero a c H Hin). unfold word_of, codes. cbn [filter fst].
  destruct (Z.eqb_spec (code a c) 0) as [E|E], (Z.eqb_spec c 0) as [E'|E']; cbn; tauto.
Qed.

(** * Growing a transducer *)
Record grows (T T' : transducer) : Prop := {
  gr_wf : wf T';
  gr_initial : initial T' = initial T;
  gr_finals : finals T' = finals T;
  gr_size : (nstates T <= nstates T')%nat;
  gr_paths : forall p l q, (p < nstates T)%nat -> (q < nstates T)%nat -> (path T' p l q <-> path T p l q)
}.
Lemma grows_refl : forall T, wf T -> grows T T.
Proof. intros T H. constructor; auto. reflexivity. Qed.
Lemma grows_trans : forall A B C, grows A B -> grows B C -> grows A C.
Proof.
  intros A B C H H'. pose proof (gr_size _ _ H). constructor; try apply H'.
  - rewrite (gr_initial _ _ H'). apply H.
  - rewrite (gr_finals _ _ H'). apply H.
  - pose proof (gr_size _ _ H'). lia.
  - intros. rewrite (gr_paths _ _ H') by lia. now apply H.
Qed.
Lemma grows_between : forall A B p q w c, grows A B -> (p < nstates A)%nat -> (q < nstates A)%nat ->
  (between B 0 p q w c <-> between A 0 p q w c).
Proof.
  intros A B p q w c G Hp Hq. unfold between.
  split; intros (l & H & R); exists l; (split; [|exact R]); apply (gr_paths _ _ G p l q Hp Hq); exact H.
Qed.

(** One new state that is only entered *)
Lemma sink_paths : forall T T' n (R : nat -> Z -> Z -> Prop), wf T -> n = nstates T ->
  (forall p a q w, has_arc T' p a q w <-> has_arc T p a q w \/ (q = n /\ R p a w)) ->
  (forall a w, ~ R n a w) ->
  forall p l q, (p < n)%nat ->
  (path T' p l q <-> path T p l q \/ (q = n /\ exists l' p' a w, l = l' ++ [(a, w)] /\ path T p l' p' /\ R p' a w)).
Proof.
  intros T T' n R HW -> H NR p l q Hp. split.
  - intros P. revert Hp. induction P as [p|p a w q l r Ha Hl IH]; intros Hp; [left; constructor|].
    apply H in Ha as [Ha|[-> Ha]].
    + destruct (IH (wf_arcs T HW _ _ _ _ Ha)) as [X|(-> & l' & p' & b & v & -> & X & Y)].
      * left. econstructor; eauto.
      * right. split; [reflexivity|]. exists ((a, w) :: l'), p', b, v. split; [reflexivity|]. split; [|exact Y].
        econstructor; eauto.
    + right. inversion Hl as [|? b v q' ? ? Hb]; subst.
      * split; [reflexivity|]. exists [], p, a, w. split; [reflexivity|]. split; [constructor|exact Ha].
      * exfalso. apply H in Hb as [Hb|[-> Hb]]; [apply has_arc_lt in Hb; lia|exact (NR _ _ Hb)].
  - assert (M : forall p l q, path T p l q -> path T' p l q).
    { intros p' l' q' X. induction X; [constructor|]. econstructor; [apply H; left; eassumption|assumption]. }
    intros [X|(-> & l' & p' & a & w & -> & X & Y)]; [now apply M|].
    eapply path_snoc; [apply M; exact X|]. apply H. right. auto.
Qed.

(** insertNewSingleTransduction *)
Lemma insertNew_spec : forall tag s w T, wf T -> (s < nstates T)%nat ->
  exists T', insertNewSingleTransduction tag s w T = (nstates T, T') /\ grows T T'
    /\ nstates T' = S (nstates T)
    /\ (forall p a q v, has_arc T' p a q v <-> has_arc T p a q v \/ (q = nstates T /\ p = s /\ a = tag /\ v = w))
    /\ forall p x c, (p < nstates T)%nat ->
        (between T' 0 p (nstates T) x c <-> wcat (between T 0 p s) (fun x c => x = word_of 0 [(tag, w)] /\ c = w) x c).
Proof.
  intros tag s w T HW Hs. unfold insertNewSingleTransduction. rewrite newState_eta.
  destruct (newState_spec T) as (_ & N & I & F & A). set (t1 := snd (newState T)) in *.
  assert (W1 : wf t1) by now apply newState_wf.
  set (T' := add_arc s (tag, (nstates T, w)) t1).
  assert (Harc : forall p a q v, has_arc T' p a q v <-> has_arc T p a q v \/ (q = nstates T /\ p = s /\ a = tag /\ v = w)).
  { intros p a q v. unfold T'. rewrite has_arc_add by lia. unfold has_arc at 1. rewrite A. fold (has_arc T p a q v).
    split; (intros [X|X]; [auto|right]).
    - destruct X as [-> X]. repeat split; congruence.
    - destruct X as (-> & -> & -> & ->). auto. }
  assert (SP := sink_paths T T' (nstates T) (fun p a v => p = s /\ a = tag /\ v = w) HW eq_refl Harc
    ltac:(intros ? ? (? & _); lia)).
  exists T'. split; [reflexivity|]. split; [|split; [unfold T'; rewrite nstates_add_arc; exact N|split; [exact Harc|]]].
  - constructor.
    + unfold T'. apply add_arc_wf; auto; lia.
    + exact I.
    + exact F.
    + unfold T'. rewrite nstates_add_arc. lia.
    + intros p l q Hp Hq. rewrite SP by exact Hp. split; [|auto]. intros [X|(-> & _)]; [exact X|lia].
  - intros p x c Hp. unfold between. split.
    + intros (l & Hl & <- & <-). apply SP in Hl as [Hl|(_ & l' & p' & a & v & -> & Hl & -> & -> & ->)]; [|..|exact Hp].
      * exfalso. assert (X : forall p l q, path T p l q -> (p < nstates T)%nat -> (q < nstates T)%nat).
        { clear - HW. intros p l q H. induction H as [|p a w q l r Ha Hp IH]; intros; auto. apply IH. exact (wf_arcs T HW _ _ _ _ Ha). }
        apply X in Hl; [|exact Hp]. lia.
      * rewrite word_app, cost_app. constructor; [eauto|]. split; [reflexivity|]. cbn. lia.
    + intros [w1 c1 w2 c2 (l & Hl & <- & <-) [-> ->]]. exists (l ++ [(tag, w)]).
      split; [|rewrite word_app, cost_app; split; [reflexivity|cbn; lia]].
      apply SP; [exact Hp|]. right. split; [reflexivity|]. exists l, s, tag, w. auto.
Qed.

(** Only the empty path leads from the initial state back to it. *)
Definition only_empty (T : transducer) : Prop := forall l, path T (initial T) l (initial T) -> l = [].
Lemma only_empty_between : forall T w c, only_empty T ->
  (between T 0 (initial T) (initial T) w c <-> w = [] /\ c = 0).
Proof.
  intros T w c H. split.
  - intros (l & Hl & <- & <-). apply H in Hl as ->. auto.
  - intros [-> ->]. exists []. split; [constructor|auto].
Qed.
Lemma grows_only_empty : forall A B, wf A -> grows A B -> only_empty A -> only_empty B.
Proof.
  intros A B HW G H l Hl. rewrite (gr_initial _ _ G) in Hl. apply H.
  assert (X := wf_initial A HW). apply (gr_paths _ _ G) in Hl; auto.
Qed.
Lemma new_only_empty : only_empty new_transducer.
Proof.
  intros l Hl. inversion Hl as [|? a w q ? ? Ha]; subst; [reflexivity|]. exfalso. destruct Ha.
Qed.
Lemma wcat_nil_l : forall L w c, wcat (fun w c => w = [] /\ c = 0) L w c <-> L w c.
Proof.
  intros L w c. split.
  - intros [u c1 v c2 [-> ->] H]. exact H.
  - intros H. change w with ([] ++ w). change c with (0 + c). constructor; auto.
Qed.
Lemma wcat_ext : forall L M L' M' : wset, (forall w c, L w c <-> L' w c) -> (forall w c, M w c <-> M' w c) ->
  forall w c, wcat L M w c <-> wcat L' M' w c.
Proof. intros L M L' M' H1 H2 w c. split; apply wcat_mono; intros; now (apply H1 || apply H2). Qed.

(** * Terms *)
(** The pairs of all symbols of the strings have tags. *)
Definition covers (a : alphabet) (L : str_set) : Prop :=
  forall cs c, L cs -> In c cs -> In (c, c) (spairinv a).
Lemma covers_extends : forall a b L, extends a b -> covers a L -> covers b L.
Proof. intros a b L E H cs c Hc Hin. apply (extends_in _ _ _ E). exact (H cs c Hc Hin). Qed.
Lemma covers_iff : forall a L M, covers a L -> (forall w, L w <-> M w) -> covers a M.
Proof. intros a L M H E cs c Hc. apply H. now apply E. Qed.
Lemma covers_star : forall a L, covers a L -> covers a (star L).
Proof.
  intros a L H cs c Hc. induction Hc as [|u v Hu Hv IH]; intros Hin; [destruct Hin|].
  apply in_app_iff in Hin as [Hin|Hin]; [exact (H u c Hu Hin)|auto].
Qed.
Lemma covers_cat : forall a L M, covers a L -> covers a M -> covers a (fun x => exists u v, x = u ++ v /\ L u /\ M v).
Proof.
  intros a L M HL HM cs c (u & v & -> & Hu & Hv) Hin. apply in_app_iff in Hin as [Hin|Hin];
    [exact (HL u c Hu Hin)|exact (HM v c Hv Hin)].
Qed.

(** Only epsilons leave a final state. *)
Definition quiet_at (t : transducer) (p : nat) : Prop := forall a q w, has_arc t p a q w -> a = 0.
Definition quiet (t : transducer) : Prop := forall p f, final_wt t p f -> quiet_at t p.
Lemma joined_quiet : forall t j, wf t -> joined 0 t j -> quiet t -> quiet j.
Proof.
  intros t j HW [p f H|j' _ Wj Hn Hi Hf Harc] Q; [exact Q|]. intros p f Hp a q w Ha. unfold final_wt in Hp. rewrite Hf in Hp.
  destruct Hp as [E|[]]. assert (p = nstates t) as -> by congruence.
  apply Harc in Ha as [Ha|(-> & _)]; [apply has_arc_lt in Ha; lia|reflexivity].
Qed.
Lemma wrapped_quiet : forall j o f fw ex, wf j -> (f < nstates j)%nat -> wrapped 0 j o f fw ex -> quiet o.
Proof.
  intros j o f fw ex HW Hl R p g Hp a q w Ha. unfold final_wt in Hp. rewrite (wr_finals _ _ _ _ _ _ R) in Hp.
  destruct Hp as [E|[]]. assert (p = S (nstates j)) as -> by congruence.
  apply (wr_arcs _ _ _ _ _ _ R) in Ha as [Ha|[(-> & _)|[(-> & _)|(-> & _)]]]; auto. apply has_arc_lt in Ha. lia.
Qed.
Lemma inserted_quiet : forall source self u self' f, inserted 0 source self u self' -> (source < nstates self)%nat ->
  quiet_at u f -> quiet_at self' (nstates self + f).
Proof.
  intros source self u self' f I Hs Q a q w Ha. apply (in_arcs _ _ _ _ _ I) in Ha as [Ha|[(p' & q' & E & _ & Ha)|(E & _)]].
  - apply has_arc_lt in Ha. lia.
  - assert (p' = f) as -> by lia. exact (Q _ _ _ Ha).
  - lia.
Qed.

(** What is known of a transducer compiled for a set of strings *)
Record compiled (a : alphabet) (t : transducer) (L : str_set) : Prop := {
  co_wf : wf t;
  co_finals : finals t <> [];
  co_lone : lone_weight t = 0;
  co_cover : covers a L;
  co_quiet : quiet t;
  co_lang : forall b, alph_inv0 b -> extends a b -> forall w c, wlang t 0 w c <-> W b L w c
}.
Definition post_lang (op : Z) (L : str_set) : str_set :=
  if op =? 42 then star L
  else if op =? 43 then fun w => exists u v, w = u ++ v /\ L u /\ star L v
  else if op =? 63 then fun w => w = [] \/ L w
  else L.

Lemma wrapped_lone : forall eps j o f fw ex, wrapped eps j o f fw ex -> lone_weight o = 0.
Proof. intros eps j o f fw ex R. unfold lone_weight. now rewrite (wr_finals _ _ _ _ _ _ R). Qed.

Lemma apply_postop_compiled : forall a t L op, compiled a t L ->
  exists o, apply_postop op t = Ok o /\ compiled a o (post_lang op L).
Proof.
  intros a t L op [C1 C2 C3 Cc Cq C4]. unfold apply_postop, post_lang.
  assert (Oq : forall t, wf t -> finals t <> [] -> forall o, optional 0 t = Ok o -> quiet o).
  { intros t0 W0 N0 o E. destruct (optional_wrapped 0 t0 W0 N0) as (j & o' & f & fw & E' & Wj & _ & Fj & R).
    assert (o = o') as -> by congruence. apply (wrapped_quiet _ _ _ _ _ Wj) with (2 := R).
    apply (wf_finals j Wj f fw). unfold final_wt. rewrite Fj. now left. }
  assert (Op : forall t, wf t -> finals t <> [] -> forall o, optional 0 t = Ok o -> lone_weight o = 0).
  { intros t0 W0 N0 o E. destruct (optional_wrapped 0 t0 W0 N0) as (j & o' & f & fw & E' & _ & _ & _ & R).
    assert (o = o') as -> by congruence. exact (wrapped_lone _ _ _ _ _ _ R). }
  destruct (op =? 42); [|destruct (op =? 43); [|destruct (op =? 63)]].
  - destruct (zeroOrMore_lang 0 t C1 C2) as (o & E & Wo & No & Lo). exists o. split; [exact E|]. constructor; auto.
    + unfold zeroOrMore in E. destruct (oneOrMore_lang 0 t C1 C2) as (o1 & E1 & W1 & N1 & _). rewrite E1 in E.
      exact (Op o1 W1 N1 o E).
    + now apply covers_star.
    + unfold zeroOrMore in E. destruct (oneOrMore_lang 0 t C1 C2) as (o1 & E1 & W1 & N1 & _). rewrite E1 in E.
      exact (Oq o1 W1 N1 o E).
    + intros b Hb Eb w c. rewrite Lo, <- W_star. split; apply wstar_mono; intros ? ?; now apply C4.
  - destruct (oneOrMore_lang 0 t C1 C2) as (o & E & Wo & No & Lo). exists o. split; [exact E|]. constructor; auto.
    + destruct (oneOrMore_wrapped 0 t C1 C2) as (j & o' & f & fw & E' & _ & _ & _ & R).
      assert (o = o') as -> by congruence. exact (wrapped_lone _ _ _ _ _ _ R).
    + apply covers_cat; [exact Cc|now apply covers_star].
    + destruct (oneOrMore_wrapped 0 t C1 C2) as (j & o' & f & fw & E' & Wj & _ & Fj & R).
      assert (o = o') as -> by congruence. apply (wrapped_quiet _ _ _ _ _ Wj) with (2 := R).
      apply (wf_finals j Wj f fw). unfold final_wt. rewrite Fj. now left.
    + intros b Hb Eb w c. rewrite Lo, <- W_plus. split; apply wplus_mono; intros ? ?; now apply C4.
  - destruct (optional_lang 0 t C1 C2) as (o & E & Wo & No & Lo). exists o. split; [exact E|]. constructor; auto.
    + exact (Op t C1 C2 o E).
    + intros cs c [->|H] Hin; [destruct Hin|exact (Cc cs c H Hin)].
    + exact (Oq t C1 C2 o E).
    + intros b Hb Eb w c. rewrite Lo, <- W_opt. split; apply wopt_mono; intros ? ?; now apply C4.
  - exists t. split; [reflexivity|]. constructor; auto.
Qed.

(** [s'] is reached from [s] by reading a member of [L] *)
Record reads (s s' : rx) (L : str_set) : Prop := {
  rd_alph : alph_inv0 (rx_a s');
  rd_extends : extends (rx_a s) (rx_a s');
  rd_grows : grows (rx_t s) (rx_t s');
  rd_state : (rx_st s' < nstates (rx_t s'))%nat;
  rd_cover : covers (rx_a s') L;
  rd_quiet : quiet_at (rx_t s') (rx_st s');
  rd_lang : forall b, alph_inv0 b -> extends (rx_a s') b -> forall p w c, (p < nstates (rx_t s))%nat ->
    (between (rx_t s') 0 p (rx_st s') w c <-> wcat (between (rx_t s) 0 p (rx_st s)) (W b L) w c)
}.
Record ok_rx (s : rx) : Prop := {
  ok_alph : alph_inv0 (rx_a s);
  ok_wf : wf (rx_t s);
  ok_state : (rx_st s < nstates (rx_t s))%nat;
  ok_empty : only_empty (rx_t s)
}.
Lemma reads_ok : forall s s' L, ok_rx s -> reads s s' L -> ok_rx s'.
Proof.
  intros s s' L [O1 O2 O3 O4] [R1 R2 R3 R4 Rc Rq R5]. constructor; auto. { apply R3. }
  exact (grows_only_empty _ _ O2 R3 O4).
Qed.
Lemma reads_trans : forall s s1 s2 L M, reads s s1 L -> reads s1 s2 M ->
  reads s s2 (fun x => exists u v, x = u ++ v /\ L u /\ M v).
Proof.
  intros s s1 s2 L M [A1 A2 A3 A4 Ac Aq A5] [B1 B2 B3 B4 Bc Bq B5]. constructor; auto.
  - eapply extends_trans; eauto.
  - eapply grows_trans; eauto.
  - apply covers_cat; [exact (covers_extends _ _ _ B2 Ac)|exact Bc].
  - intros b Hb Eb p w c Hp. assert (X := gr_size _ _ A3). rewrite (B5 b Hb Eb) by lia.
    rewrite (wcat_ext _ _ _ _ (fun w c => A5 b Hb ltac:(eapply extends_trans; eauto) p w c Hp) (fun w c => iff_refl _)).
    rewrite wcat_assoc. apply wcat_ext; [intros; reflexivity|]. intros. apply W_cat.
Qed.

Lemma insert_term_reads : forall s l a t L, ok_rx s -> alph_inv0 a -> extends (rx_a s) a -> compiled a t L ->
  exists s', insert_term l a t (rx_t s) (rx_st s) = Ok s' /\ rx_in s' = l /\ rx_a s' = a /\ reads s s' L.
Proof.
  intros s l a t L [O1 O2 O3 O4] Ha Ea [C1 C2 C3 Cc Cq C4]. unfold insert_term.
  destruct (insertTransducer_spec 0 (rx_st s) t (rx_t s) C1 C2 O2 O3) as (u & T0 & f & fw & E0 & Wu & Ju & Fu & Iu).
  destruct (C24_insert (rx_t s) t 0 (rx_st s) O2 C1 C2 O3) as (r & T' & t' & E & G1 & G2 & G3 & G4 & G5 & G6).
  rewrite E. cbn [obind]. eexists. split; [reflexivity|]. do 2 (split; [reflexivity|]). constructor; cbn [rx_a rx_t rx_st]; auto.
  - constructor; auto. lia.
  - lia.
  - assert (X : (r, T') = ((nstates (rx_t s) + f)%nat, T0)) by congruence.
    assert (r = (nstates (rx_t s) + f)%nat) as -> by congruence. assert (T' = T0) as -> by congruence.
    apply (inserted_quiet _ _ _ _ f Iu O3). apply (joined_quiet t u C1 Ju Cq f fw). unfold final_wt. rewrite Fu. now left.
  - intros b Hb Eb p w c Hp. rewrite (G6 p w c Hp). apply wcat_ext; [intros; reflexivity|].
    intros w' c'. rewrite C3, Z.add_0_r. now apply C4.
Qed.

(** * Final states *)
Lemma path_same_trans : forall T T', trans T = trans T' -> forall p l q, path T p l q <-> path T' p l q.
Proof.
  assert (X : forall T T', trans T = trans T' -> forall p l q, path T p l q -> path T' p l q).
  { intros T T' E p l q H. induction H as [|p a w q l r Ha Hl IH]; [constructor|]. econstructor; [|exact IH].
    unfold has_arc, arcs_of in *. now rewrite <- E. }
  intros T T' E p l q. split; apply X; auto.
Qed.
Lemma setFinal_wf : forall s w T, wf T -> (s < nstates T)%nat -> wf (setFinal s w true T).
Proof.
  intros s w T [W1 W2 W3 W4 W5] Hs. unfold setFinal. constructor; cbn [initial finals trans]; auto.
  - intros p f H. unfold final_wt in H. cbn in H. apply fin_insert_fst in H as [->|H]; [exact Hs|]. exact (W2 p f H).
  - now apply fin_insert_sorted.
Qed.
Lemma setFinal_wlang : forall s T, wf T -> (forall f, ~ final_wt T s f) -> forall x c,
  wlang (setFinal s 0 true T) 0 x c <-> wlang T 0 x c \/ between T 0 (initial T) s x c.
Proof.
  intros s T HW Hn x c. unfold wlang, accepts_from.
  assert (P := path_same_trans (setFinal s 0 true T) T eq_refl).
  assert (F : forall p f, final_wt (setFinal s 0 true T) p f <-> final_wt T p f \/ (p = s /\ f = 0)).
  { intros p f. unfold final_wt, setFinal. cbn [finals]. rewrite fin_insert_in by apply HW.
    split; (intros [X|X]; [auto|right]); [tauto|]. destruct X. repeat split; auto. }
  change (initial (setFinal s 0 true T)) with (initial T). split.
  - intros (l & f & (q & Hp & Hf) & Hx & Hc). apply P in Hp. apply F in Hf as [Hf|[-> ->]].
    + left. exists l, f. split; [exists q; auto|auto].
    + right. exists l. split; [exact Hp|]. split; [exact Hx|lia].
  - intros [(l & f & (q & Hp & Hf) & Hx & Hc)|(l & Hp & Hx & Hc)].
    + exists l, f. split; [exists q; split; [now apply P|apply F; auto]|auto].
    + exists l, 0. split; [exists s; split; [now apply P|apply F; auto]|split; [exact Hx|lia]].
Qed.
Lemma grows_wlang : forall A B, wf A -> grows A B -> forall x c, wlang B 0 x c <-> wlang A 0 x c.
Proof.
  intros A B HW G x c. unfold wlang, accepts_from, final_wt.
  rewrite (gr_initial _ _ G), (gr_finals _ _ G).
  split; intros (l & f & (q & Hp & Hf) & R); exists l, f; (split; [|exact R]); exists q; (split; [|exact Hf]);
    apply (gr_paths _ _ G); auto; try apply (wf_initial A HW); exact (wf_finals A HW q f Hf).
Qed.
Lemma between_lt : forall T p q w c, wf T -> (p < nstates T)%nat -> between T 0 p q w c -> (q < nstates T)%nat.
Proof.
  intros T p q w c HW Hp (l & H & _). revert Hp. induction H as [|p a v q l r Ha Hl IH]; intros; auto.
  apply IH. exact (wf_arcs T HW _ _ _ _ Ha).
Qed.

Lemma fin_insert_ne : forall s w l, fin_insert s w l <> [].
Proof.
  intros s w [|[p f] l]; [discriminate|]. cbn [fin_insert].
  destruct (s <? p)%nat; [discriminate|]. destruct (s =? p)%nat; discriminate.
Qed.

(** * One letter *)
Lemma pair_code_inv0 : forall p a, alph_inv0 a -> alph_inv0 (snd (pair_code p a)).
Proof. intros p a H. apply (inv0_extends a); auto; [apply pair_inv|apply pair_extends]; apply H. Qed.

Lemma letter_compiled : forall c a, alph_inv0 a ->
  let '(tag, a') := pair_code (c, c) a in
  let '(e, t) := insertNewSingleTransduction tag (initial new_transducer) 0 new_transducer in
  alph_inv0 a' /\ extends a a' /\ compiled a' (setFinal e 0 true t) (fun w => w = [c]).
Proof.
  intros c a Ha. destruct (pair_code (c, c) a) as [tag a'] eqn:E.
  assert (Ea : a' = snd (pair_code (c, c) a)) by now rewrite E.
  assert (Et : tag = fst (pair_code (c, c) a)) by now rewrite E.
  assert (I := pair_code_inv0 (c, c) a Ha). rewrite <- Ea in I.
  destruct (insertNew_spec tag (initial new_transducer) 0 new_transducer new_transducer_wf ltac:(cbn; lia))
    as (T' & -> & G & N & A & B).
  split; [exact I|]. split; [rewrite Ea; apply pair_extends; apply Ha|].
  assert (Fn : forall f, ~ final_wt T' (nstates new_transducer) f).
  { intros f H. unfold final_wt in H. rewrite (gr_finals _ _ G) in H. exact H. }
  constructor.
  - apply setFinal_wf; [apply G|lia].
  - unfold setFinal. cbn [finals]. rewrite (gr_finals _ _ G). discriminate.
  - unfold setFinal, lone_weight. cbn [finals]. rewrite (gr_finals _ _ G). reflexivity.
  - intros cs x -> [<-|[]]. rewrite Ea. apply pair_in. apply Ha.
  - intros p f Hp a0 q w Harc. unfold final_wt, setFinal in Hp. cbn [finals] in Hp. rewrite (gr_finals _ _ G) in Hp.
    destruct Hp as [Hp|[]]. assert (p = nstates new_transducer) as -> by congruence.
    change (has_arc T' (nstates new_transducer) a0 q w) in Harc.
    apply A in Harc as [Harc|(_ & X & _)]; [apply has_arc_lt in Harc; lia|discriminate].
  - intros b Hb Eb w c0. rewrite setFinal_wlang by (auto; apply G).
    rewrite (grows_wlang _ _ new_transducer_wf G), (gr_initial _ _ G), B by (cbn; lia).
    rewrite (wcat_ext _ _ _ _ (fun w c => only_empty_between _ w c new_only_empty) (fun w c => iff_refl _)), wcat_nil_l.
    assert (T : tag = code b c) by (rewrite Et; apply code_later; [apply Ha|apply Hb|now rewrite <- Ea]).
    assert (Hin : In (c, c) (spairinv b)).
    { apply (extends_in _ _ _ Eb). rewrite Ea. apply pair_in. apply Ha. }
    rewrite T, (code_word b c Hb Hin). unfold W. split.
    + intros [(l & f & (q & _ & []) & _)|[-> ->]]. split; eauto.
    + intros [-> (cs & -> & ->)]. auto.
Qed.

(** * Classes *)
Record class_inv (a0 a : alphabet) (t : transducer) (L : str_set) : Prop := {
  ci_alph : alph_inv0 a;
  ci_ext : extends a0 a;
  ci_wf : wf t;
  ci_empty : only_empty t;
  ci_zero : forall p f, final_wt t p f -> f = 0;
  ci_quiet : forall p f, final_wt t p f -> p <> initial t /\ quiet_at t p;
  ci_cover : covers a L;
  ci_lang : forall b, alph_inv0 b -> extends a b -> forall w c, wlang t 0 w c <-> W b L w c
}.
Lemma class_inv_iff : forall a0 a t L M, class_inv a0 a t L -> (forall w, L w <-> M w) -> class_inv a0 a t M.
Proof.
  intros a0 a t L M [H1 H2 H3 H4 H5 Hq Hv H6] E. constructor; auto. { exact (covers_iff _ _ _ Hv E). } intros b Hb Eb w c. rewrite (H6 b Hb Eb). unfold W.
  split; intros [-> (cs & Hc & ->)]; (split; [auto|]); exists cs; (split; [now apply E|auto]).
Qed.
Lemma add_char_inv : forall a0 a t L c, class_inv a0 a t L ->
  class_inv a0 (fst (add_char (a, t) c)) (snd (add_char (a, t) c)) (fun w => L w \/ w = [c])
  /\ finals (snd (add_char (a, t) c)) <> [].
Proof.
  intros a0 a t L c [Ha Ea Wt Et Zt Qt Ct Lt]. unfold add_char.
  assert (Hi := wf_initial t Wt).
  destruct (insertNew_spec 0 (initial t) 0 t Wt Hi) as (T1 & -> & G1 & N1 & A1 & B1).
  destruct (pair_code (c, c) a) as [tag a'] eqn:E.
  assert (Ea' : a' = snd (pair_code (c, c) a)) by now rewrite E.
  assert (Et' : tag = fst (pair_code (c, c) a)) by now rewrite E.
  assert (I := pair_code_inv0 (c, c) a Ha). rewrite <- Ea' in I.
  destruct (insertNew_spec tag (nstates t) 0 T1 (gr_wf _ _ G1) ltac:(lia)) as (T2 & -> & G2 & N2 & A2 & B2).
  assert (G := grows_trans _ _ _ G1 G2). cbn [fst snd].
  assert (Fn : forall f, ~ final_wt T2 (nstates T1) f).
  { intros f H. unfold final_wt in H. rewrite (gr_finals _ _ G) in H. apply (wf_finals t Wt) in H. lia. }
  assert (Wf2 : wf (setFinal (nstates T1) 0 true T2)) by (apply setFinal_wf; [apply G|lia]).
  split.
  - constructor; auto.
    + eapply extends_trans; [exact Ea|]. rewrite Ea'. apply pair_extends. apply Ha.
    + intros l Hl. apply (path_same_trans (setFinal (nstates T1) 0 true T2) T2 eq_refl) in Hl.
      exact (grows_only_empty _ _ Wt G Et l Hl).
    + intros p f H. unfold final_wt, setFinal in H. cbn [finals] in H.
      apply fin_insert_in in H; [|apply G2]. destruct H as [H|(-> & -> & _)]; [|reflexivity].
      rewrite (gr_finals _ _ G) in H. exact (Zt p f H).
    + intros p f H. change (initial (setFinal (nstates T1) 0 true T2)) with (initial T2). rewrite (gr_initial _ _ G).
      unfold final_wt, setFinal in H. cbn [finals] in H.
      apply fin_insert_in in H; [|apply G2]. destruct H as [H|(-> & -> & _)].
      * rewrite (gr_finals _ _ G) in H. destruct (Qt p f H) as [X Y]. split; [exact X|]. intros b q w Hb.
        change (has_arc T2 p b q w) in Hb. assert (Hp := wf_finals t Wt p f H).
        apply A2 in Hb as [Hb|(_ & E1 & _)]; [|lia]. apply A1 in Hb as [Hb|(_ & E1 & _)]; [exact (Y _ _ _ Hb)|contradiction].
      * split; [lia|]. intros b q w Hb. change (has_arc T2 (nstates T1) b q w) in Hb.
        apply A2 in Hb as [Hb|(_ & E1 & _)]; [|lia]. apply has_arc_lt in Hb. lia.
    + assert (X := pair_extends (c, c) a (proj1 Ha)). rewrite <- Ea' in X.
      intros cs x [H| ->] Hin; [exact (covers_extends _ _ _ X Ct cs x H Hin)|].
      destruct Hin as [<-|[]]. rewrite Ea'. apply pair_in. apply Ha.
    + intros b Hb Eb w c0. rewrite setFinal_wlang by (auto; apply G).
      rewrite (grows_wlang _ _ Wt G), (gr_initial _ _ G), B2 by lia.
      rewrite (wcat_ext _ _ _ _ (fun w c => B1 (initial t) w c Hi) (fun w c => iff_refl _)), wcat_assoc.
      rewrite (wcat_ext _ _ _ _ (fun w c => only_empty_between _ w c Et) (fun w c => iff_refl _)), wcat_nil_l.
      rewrite (wcat_ext _ _ _ _ (fun w c => iff_refl (w = [] /\ c = 0)) (fun w c => iff_refl _)), wcat_nil_l.
      assert (T : tag = code b c) by (rewrite Et'; apply code_later; [apply Ha|apply Hb|now rewrite <- Ea']).
      assert (Hin : In (c, c) (spairinv b)).
      { apply (extends_in _ _ _ Eb). rewrite Ea'. apply pair_in. apply Ha. }
      rewrite T, (code_word b c Hb Hin), (Lt b Hb). 2:{ eapply extends_trans; [|exact Eb]. rewrite Ea'. apply pair_extends. apply Ha. }
      unfold W. split.
      * intros [[-> (cs & H & ->)]|[-> ->]]; (split; [reflexivity|]); eauto.
      * intros [-> (cs & [H| ->] & ->)]; [left|right]; eauto.
  - unfold setFinal. cbn [finals]. rewrite (gr_finals _ _ G).
    apply fin_insert_ne.
Qed.
Lemma add_chars_inv : forall cs a0 a t L, class_inv a0 a t L ->
  exists a' t', fold_left add_char cs (a, t) = (a', t')
  /\ class_inv a0 a' t' (fun w => L w \/ exists c, w = [c] /\ In c cs)
  /\ (cs <> [] \/ finals t <> [] -> finals t' <> []).
Proof.
  induction cs as [|c cs IH]; intros a0 a t L H.
  - exists a, t. split; [reflexivity|]. split; [|intros [X|X]; [easy|exact X]].
    apply (class_inv_iff _ _ _ L); auto. intros w. split; [auto|]. intros [X|(c & _ & [])]. exact X.
  - destruct (add_char_inv a0 a t L c H) as [H1 N1]. cbn [fold_left].
    destruct (add_char (a, t) c) as [a1 t1]. cbn [fst snd] in *.
    destruct (IH a0 a1 t1 _ H1) as (a' & t' & E & H2 & N2). exists a', t'. split; [exact E|].
    split; [|intros _; apply N2; auto].
    apply (class_inv_iff _ _ _ _ _ H2). intros w. split.
    + intros [[X| ->]|(d & -> & Hd)]; [auto|right; exists c; cbn; auto|right; exists d; cbn; auto].
    + intros [X|(d & -> & [->|Hd])]; [auto|auto|right; exists d; auto].
Qed.
Lemma class_compiled : forall cs a, alph_inv0 a ->
  let '(a', t) := fold_left add_char cs (a, new_transducer) in
  alph_inv0 a' /\ extends a a'
  /\ match cs with
     | [] => joinFinals 0 t = Exit
     | _ => exists j, joinFinals 0 t = Ok j /\ compiled a' j (fun w => exists c, w = [c] /\ In c cs)
     end.
Proof.
  intros cs a Ha.
  assert (H0 : class_inv a a new_transducer (fun _ => False)).
  { constructor; auto using extends_refl, new_transducer_wf, new_only_empty.
    - intros p f [].
    - intros p f [].
    - intros zs z [].
    - intros b Hb Eb w c. unfold W. split; [intros (l & f & (q & _ & []) & _)|intros [_ (x & [] & _)]]. }
  destruct cs as [|c cs].
  { cbn. split; [exact Ha|]. split; [apply extends_refl|reflexivity]. }
  destruct (add_chars_inv (c :: cs) a a new_transducer _ H0) as (a' & t' & -> & [C1 C2 C3 C4 C5 Cq Cc C6] & N).
  split; [exact C1|]. split; [exact C2|]. assert (N' : finals t' <> []) by (apply N; left; discriminate).
  destruct (joinFinals_spec 0 t' C3 N') as (j & E & Wj & J). exists j. split; [exact E|].
  destruct (joined_single _ _ _ J) as ([f fw] & Hf).
  constructor; auto.
  - rewrite Hf. discriminate.
  - unfold lone_weight. rewrite Hf. destruct J as [p g E'|j L0 _ _ _ E' _].
    + apply (C5 f fw). unfold final_wt. rewrite Hf. now left.
    + rewrite E' in Hf. congruence.
  - apply (covers_iff _ _ _ Cc). intros w. split; [intros [[]|H]; exact H|auto].
  - apply (joined_quiet t' j C3 J). intros p g Hp. exact (proj2 (Cq p g Hp)).
  - intros b Hb Eb w c0. rewrite (joined_wlang 0 t' j w c0 C3 J), (C6 b Hb Eb). unfold W.
    split; intros [-> (x & H & ->)]; (split; [reflexivity|]); exists x; (split; [|reflexivity]).
    + destruct H as [[]|H]; exact H.
    + auto.
Qed.

(** * Tokens *)
Definition no_fin (l : list Z) : Prop := Forall (fun c => c <> FIN_FICHERO) l.
Lemma isReserved_iff : forall c, isReserved c = true <-> In c reserved \/ c = FIN_FICHERO.
Proof.
  intros c. unfold isReserved. rewrite existsb_exists. split.
  - intros (x & Hx & E). apply Z.eqb_eq in E. subst x. cbn [In] in Hx. unfold reserved. cbn [In]. intuition.
  - intros H. exists c. rewrite Z.eqb_refl. split; [|reflexivity]. unfold reserved in H. cbn [In] in H |- *. intuition.
Qed.
Lemma isReserved_false : forall c, ~ In c reserved -> c <> FIN_FICHERO -> isReserved c = false.
Proof.
  intros c H1 H2. destruct (isReserved c) eqn:E; [|reflexivity]. apply isReserved_iff in E as [E|E]; contradiction.
Qed.
Lemma isReserved_false_inv : forall c, isReserved c = false -> ~ In c reserved /\ c <> FIN_FICHERO.
Proof. intros c H. split; intros X; assert (isReserved c = true) by (apply isReserved_iff; auto); congruence. Qed.

Lemma letra_char : forall c s rest, g_char c s -> no_fin s -> letra (s ++ rest) = Ok (c, rest).
Proof.
  intros c s rest H N. destruct H as [c H|c H]; inversion_clear N as [|? ? N1 N2]; unfold letra.
  - cbn [app token hd]. rewrite (isReserved_false c H N1). cbn [negb]. unfold consume. cbn [token hd].
    rewrite Z.eqb_refl. reflexivity.
  - cbn [app token hd]. change (isReserved 92) with true. cbn [negb]. rewrite Z.eqb_refl.
    unfold consume at 1. cbn [token hd]. rewrite Z.eqb_refl. cbn [obind]. unfold reservado. cbn [token hd].
    replace (isReserved c) with true by (symmetry; apply isReserved_iff; auto).
    unfold consume. cbn [token hd]. rewrite Z.eqb_refl. reflexivity.
Qed.
(** The first token of a symbol *)
Lemma char_token : forall c s rest, g_char c s -> no_fin s ->
  negb (isReserved (token (s ++ rest))) || (token (s ++ rest) =? 92) = true.
Proof.
  intros c s rest H N. destruct H as [c H|c H]; inversion_clear N as [|? ? N1 N2]; cbn [app token hd].
  - now rewrite (isReserved_false c H N1).
  - reflexivity.
Qed.
Lemma consume_tok : forall t l, consume t (t :: l) = Ok l.
Proof. intros t l. unfold consume. cbn [token hd]. now rewrite Z.eqb_refl. Qed.

Lemma zset_insert_in : forall x l y, In y (zset_insert x l) <-> y = x \/ In y l.
Proof.
  induction l as [|z l IH]; intros y; cbn [zset_insert]; [cbn; intuition|].
  destruct (x <? z); [cbn; intuition|]. destruct (Z.eqb_spec x z) as [->|]; [cbn; intuition|].
  cbn [In]. rewrite IH. intuition.
Qed.
Lemma zset_inserts_in : forall xs l y, In y (fold_left (fun b i => zset_insert i b) xs l) <-> In y xs \/ In y l.
Proof.
  induction xs as [|x xs IH]; intros l y; cbn [fold_left In]; [tauto|]. rewrite IH, zset_insert_in. intuition.
Qed.
Lemma zrange_in : forall lo hi c, In c (zrange lo hi) <-> lo <= c <= hi.
Proof.
  intros lo hi c. unfold zrange. rewrite in_map_iff. split.
  - intros (i & <- & H). apply in_seq in H. lia.
  - intros H. exists (Z.to_nat (c - lo)). rewrite in_seq. lia.
Qed.

Lemma items_lista : forall items s, g_items items s -> no_fin s -> forall n rest br, (length s < n)%nat ->
  exists br', lista n (s ++ [93] ++ rest) br = Ok ([93] ++ rest, br')
  /\ forall c, In c br' <-> in_items c items \/ In c br.
Proof.
  induction 1 as [|c s items s' Hc Hi IH|c s d s1 items s' Hc Hd Hcd Hi IH]; intros N n rest br Hn;
    (destruct n as [|n]; [lia|]); cbn [lista].
  - cbn [app token hd]. change (isReserved 93) with true. cbn [negb orb]. change (93 =? 92) with false. change (93 =? 93) with true.
    cbn [orb]. exists br. split; [reflexivity|]. intros c. split; [auto|]. intros [(lo & hi & [] & _)|X]. exact X.
  - apply Forall_app in N as [N1 N2]. rewrite <- app_assoc. rewrite (char_token c s _ Hc N1).
    assert (Ls : (0 < length s)%nat) by (destruct Hc; cbn; lia). rewrite app_length in Hn.
    unfold elem. rewrite (char_token c s _ Hc N1), (letra_char c s _ Hc N1). cbn [obind].
    set (tl := s' ++ [93] ++ rest).
    assert (C : colaLetra c tl = Ok (c, tl)).
    { unfold colaLetra, tl. destruct Hi as [|c2 s2 it2 s2' Hc2 Hi2|c2 s2 d2 s3 it2 s2' Hc2 Hd2 Hcd2 Hi2].
      - reflexivity.
      - rewrite <- app_assoc. apply Forall_app in N2 as [N2 _]. assert (X := char_token c2 s2 (s2' ++ [93] ++ rest) Hc2 N2).
        destruct Hc2 as [c2 H2|c2 H2]; cbn [app token hd] in *.
        + destruct (Z.eqb_spec c2 45) as [->|]; [exfalso; apply H2; cbn; intuition|]. now rewrite X.
        + reflexivity.
      - rewrite <- app_assoc. apply Forall_app in N2 as [N2 _]. assert (X := char_token c2 s2 (([45] ++ s3 ++ s2') ++ [93] ++ rest) Hc2 N2).
        destruct Hc2 as [c2 H2|c2 H2]; cbn [app token hd] in *.
        + destruct (Z.eqb_spec c2 45) as [->|]; [exfalso; apply H2; cbn; intuition|]. now rewrite X.
        + reflexivity. }
    rewrite C. cbn [obind]. rewrite Z.ltb_irrefl. cbn [obind].
    destruct (IH N2 n rest (fold_left (fun b i => zset_insert i b) (zrange c c) br) ltac:(lia)) as (br' & E & M).
    exists br'. split; [exact E|]. intros x. rewrite M, zset_inserts_in, zrange_in. split.
    + intros [(lo & hi & Hin & Hx)|[Hx|Hx]]; [left; exists lo, hi; cbn; auto|left; exists c, c; cbn; auto|auto].
    + intros [(lo & hi & [[= <- <-]|Hin] & Hx)|Hx]; [auto|left; exists lo, hi; auto|auto].
  - apply Forall_app in N as [N1 N2]. rewrite <- app_assoc. rewrite (char_token c s _ Hc N1).
    assert (Ls : (0 < length s)%nat) by (destruct Hc; cbn; lia). rewrite !app_length in Hn.
    unfold elem. rewrite (char_token c s _ Hc N1), (letra_char c s _ Hc N1). cbn [obind].
    cbn [app] in N2. inversion_clear N2 as [|? ? _ N3]. apply Forall_app in N3 as [N3 N4].
    unfold colaLetra. cbn [app token hd]. rewrite consume_tok. cbn [obind]. change (45 =? 45) with true. cbv iota.
    rewrite <- app_assoc, (letra_char d s1 _ Hd N3). cbn [obind].
    destruct (d <? c) eqn:E1; [lia|]. cbn [obind].
    destruct (IH N4 n rest (fold_left (fun b i => zset_insert i b) (zrange c d) br) ltac:(lia)) as (br' & E & M).
    exists br'. split; [exact E|]. intros x. rewrite M, zset_inserts_in, zrange_in. split.
    + intros [(lo & hi & Hin & Hx)|[Hx|Hx]]; [left; exists lo, hi; cbn; auto|left; exists c, d; cbn; auto|auto].
    + intros [(lo & hi & [[= <- <-]|Hin] & Hx)|Hx]; [auto|left; exists lo, hi; auto|auto].
Qed.

(** * What may follow *)
Definition alt_stop (l : list Z) : Prop := token l = FIN_FICHERO \/ token l = 41.
Definition seq_stop (l : list Z) : Prop := alt_stop l \/ token l = 124.
Definition post_stop (l : list Z) : Prop := seq_stop l \/ starts (token l) = true.

Lemma postop_none : forall l, post_stop l -> postop l = Ok (0, l).
Proof.
  intros l H. unfold postop.
  assert (X : starts (token l) || (token l =? 124) || (token l =? FIN_FICHERO) || (token l =? 41) = true).
  { destruct H as [[[->| ->]| ->]| ->]; reflexivity. }
  rewrite X. clear X.
  assert (X : forall t, starts t = true -> (t =? 42) = false /\ (t =? 63) = false /\ (t =? 43) = false).
  { intros t Ht. repeat split; apply Z.eqb_neq; intros ->; discriminate. }
  destruct H as [[[->| ->]| ->]|H]; try reflexivity. destruct (X _ H) as (-> & -> & ->). reflexivity.
Qed.
Lemma starts_char : forall t, negb (isReserved t) || (t =? 92) = true -> starts t = true.
Proof.
  intros t H. unfold starts. apply orb_true_iff in H as [->| ->]; [|apply orb_true_r].
  rewrite orb_true_r. reflexivity.
Qed.
Lemma g_starts :
  (forall r s, g_alt r s -> no_fin s -> forall rest, starts (token (s ++ rest)) = true)
  /\ (forall r s, g_seq r s -> no_fin s -> forall rest, starts (token (s ++ rest)) = true)
  /\ (forall r s, g_post r s -> no_fin s -> forall rest, starts (token (s ++ rest)) = true)
  /\ (forall r s, g_atom r s -> no_fin s -> forall rest, starts (token (s ++ rest)) = true).
Proof.
  apply g_mut; intros; auto; try (rewrite <- app_assoc; repeat match goal with H : no_fin (_ ++ _) |- _ => apply Forall_app in H as [? ?] end; auto; fail).
  apply starts_char. eapply char_token; eauto.
Qed.

(** * From an expression to its transducer *)
Definition code_univ (c : Z) : Prop := 0 <= c <= 255.
Notation D := (den code_univ).

Definition P_alt (r : re) (s : list Z) : Prop := no_fin s -> choosable code_univ r -> forall n1 n2 sx rest, alt_stop rest ->
  ok_rx sx -> rx_st sx = initial (rx_t sx) -> rx_in sx = s ++ rest ->
  (4 * length (rx_in sx) + 3 <= n1)%nat -> (4 * length (rx_in sx) + 1 <= n2)%nat ->
  exists sx', (let! s1 := rRExpr n1 sx in rCola n2 s1) = Ok sx' /\ rx_in sx' = rest
    /\ alph_inv0 (rx_a sx') /\ extends (rx_a sx) (rx_a sx') /\ grows (rx_t sx) (rx_t sx')
    /\ (rx_st sx' < nstates (rx_t sx'))%nat /\ covers (rx_a sx') (D r)
    /\ quiet_at (rx_t sx') (rx_st sx')
    /\ forall b, alph_inv0 b -> extends (rx_a sx') b -> forall w c,
        between (rx_t sx') 0 (initial (rx_t sx)) (rx_st sx') w c <-> W b (D r) w c.
Definition P_seq (r : re) (s : list Z) : Prop := no_fin s -> choosable code_univ r -> forall n1 n2 sx rest, seq_stop rest ->
  ok_rx sx -> rx_in sx = s ++ rest ->
  (4 * length (rx_in sx) + 2 <= n1)%nat -> (4 * length (rx_in sx) <= n2)%nat ->
  exists sx', (let! s1 := rTerm n1 sx in rRExprp n2 s1) = Ok sx' /\ rx_in sx' = rest /\ reads sx sx' (D r).
Definition P_post (r : re) (s : list Z) : Prop := no_fin s -> choosable code_univ r -> forall n sx rest, post_stop rest ->
  ok_rx sx -> rx_in sx = s ++ rest -> (4 * length (rx_in sx) + 2 <= n)%nat ->
  exists sx', rTerm n sx = Ok sx' /\ rx_in sx' = rest /\ reads sx sx' (D r).
Definition P_atom (r : re) (s : list Z) : Prop := no_fin s -> choosable code_univ r -> forall n sx tl op rest,
  postop tl = Ok (op, rest) ->
  ok_rx sx -> rx_in sx = s ++ tl -> (4 * length (rx_in sx) + 2 <= n)%nat ->
  exists a t, alph_inv0 a /\ extends (rx_a sx) a /\ compiled a t (D r)
    /\ rTerm n sx = (let! o := apply_postop op t in insert_term rest a o (rx_t sx) (rx_st sx)).

Lemma compiled_iff : forall a t L M, compiled a t L -> (forall w, L w <-> M w) -> compiled a t M.
Proof.
  intros a t L M [H1 H2 H3 Hv Hq H4] E. constructor; auto. { exact (covers_iff _ _ _ Hv E). } intros b Hb Eb w c. rewrite (H4 b Hb Eb). unfold W.
  split; intros [-> (cs & Hc & ->)]; (split; [auto|]); exists cs; (split; [now apply E|auto]).
Qed.

Lemma atom_post : forall r s op tl, P_atom r s -> no_fin s -> choosable code_univ r -> forall n sx rest,
  postop (tl ++ rest) = Ok (op, rest) -> ok_rx sx -> rx_in sx = (s ++ tl) ++ rest ->
  (4 * length (rx_in sx) + 2 <= n)%nat ->
  exists sx', rTerm n sx = Ok sx' /\ rx_in sx' = rest /\ reads sx sx' (post_lang op (D r)).
Proof.
  intros r s op tl PA N C n sx rest Hp Ok_ E Hn. rewrite <- app_assoc in E.
  destruct (PA N C n sx (tl ++ rest) op rest Hp Ok_ E Hn) as (a & t & Ha & Ea & Ct & ->).
  destruct (apply_postop_compiled a t _ op Ct) as (o & -> & Co). cbn [obind].
  destruct (insert_term_reads sx rest a o _ Ok_ Ha Ea Co) as (s' & E1 & E2 & _ & R). exists s'. auto.
Qed.
Lemma post_nonempty : forall r s, g_post r s -> s <> [].
Proof.
  assert (A : forall c s, g_char c s -> s <> []) by (intros c s []; discriminate).
  assert (A2 : forall r s, g_atom r s -> s <> []) by (intros r s [c s0 H| | | ]; [now apply A in H|discriminate|discriminate|discriminate]).
  intros r s [r0 s0 H|r0 s0 H|r0 s0 H|r0 s0 H]; [now apply A2 in H|..]; destruct s0; discriminate.
Qed.
Lemma seq_nonempty : forall r s, g_seq r s -> s <> [].
Proof. intros r s [r0 s0 H|r0 s0 r1 s1 H _]; apply post_nonempty in H; [exact H|]. destruct s0; [easy|discriminate]. Qed.

(** The two ends of an alternative are joined in a new state. *)
Lemma join_alternatives : forall T st e, wf T -> (st < nstates T)%nat -> (e < nstates T)%nat ->
  exists T', (let '(state, t) := insertNewSingleTransduction 0 st 0 T in
              let! t := linkStates e state 0 0 t in Ok (state, t)) = Ok (nstates T, T')
  /\ grows T T' /\ nstates T' = S (nstates T) /\ quiet_at T' (nstates T)
  /\ forall p w c, (p < nstates T)%nat ->
       (between T' 0 p (nstates T) w c <-> between T 0 p st w c \/ between T 0 p e w c).
Proof.
  intros T st e HW Hst He.
  destruct (insertNew_spec 0 st 0 T HW Hst) as (T1 & -> & G1 & N1 & A1 & _).
  destruct (linkStates_spec e (nstates T) 0 0 T1 (gr_wf _ _ G1) ltac:(lia) ltac:(lia)) as (T' & -> & W' & N' & I' & F' & Arcs).
  exists T'. split; [reflexivity|].
  assert (A : forall p a q v, has_arc T' p a q v <-> has_arc T p a q v \/ (q = nstates T /\ (a = 0 /\ v = 0 /\ (p = st \/ p = e)))).
  { intros p a q v. destruct Arcs as [[-> (w' & X)]|[_ X]].
    - apply A1 in X as [X|(_ & -> & _ & _)]; [apply (wf_arcs T HW) in X; lia|]. rewrite A1. intuition.
    - rewrite X, A1. intuition congruence. }
  assert (SP := sink_paths T T' (nstates T) (fun p a v => a = 0 /\ v = 0 /\ (p = st \/ p = e)) HW eq_refl A ltac:(intros ? ? (_ & _ & [X|X]); lia)).
  split; [|split; [now rewrite N'|split; [intros a q w Ha; apply A in Ha as [Ha|(_ & -> & _)]; [apply has_arc_lt in Ha; lia|reflexivity]|]]].
  - constructor; auto; [rewrite I'; apply G1|rewrite F'; apply G1|rewrite N', N1; lia|].
    intros p l q Hp Hq. rewrite SP by exact Hp. split; [|auto]. intros [X|(-> & _)]; [exact X|lia].
  - intros p w c Hp. split.
    + intros (l & Hl & <- & <-).
      apply SP in Hl as [Hl|(_ & l' & p' & a & v & -> & Hl & -> & -> & Hp')]; [| |exact Hp].
      * exfalso. assert (X := between_lt T p (nstates T) _ _ HW Hp (ex_intro _ l (conj Hl (conj eq_refl eq_refl)))). lia.
      * rewrite word_app, cost_app. change (word_of 0 [(0, 0)]) with (@nil Z). change (cost_of [(0, 0)]) with 0.
        rewrite app_nil_r, Z.add_0_r. destruct Hp' as [->| ->]; [left|right]; exists l'; auto.
    + intros H. assert (Hx : exists p', (p' = st \/ p' = e) /\ between T 0 p p' w c) by (destruct H; eauto).
      clear H. destruct Hx as (p' & Hp' & l & Hl & <- & <-). exists (l ++ [(0, 0)]).
      split; [|rewrite word_app, cost_app; change (word_of 0 [(0, 0)]) with (@nil Z); change (cost_of [(0, 0)]) with 0; rewrite app_nil_r, Z.add_0_r; auto].
      apply SP; [exact Hp|]. right. split; [reflexivity|]. exists l, p', 0, 0. auto.
Qed.

Lemma reads_iff : forall s s' L M, reads s s' L -> (forall w, L w <-> M w) -> reads s s' M.
Proof.
  intros s s' L M [H1 H2 H3 H4 Hv Hq H5] E. constructor; auto. { exact (covers_iff _ _ _ Hv E). } intros b Hb Eb p w c Hp. rewrite (H5 b Hb Eb p w c Hp).
  apply wcat_ext; [intros; reflexivity|]. intros w' c'. unfold W.
  split; intros [-> (cs & Hc & ->)]; (split; [auto|]); exists cs; (split; [now apply E|auto]).
Qed.

Theorem forward : (forall r s, g_alt r s -> P_alt r s) /\ (forall r s, g_seq r s -> P_seq r s)
  /\ (forall r s, g_post r s -> P_post r s) /\ (forall r s, g_atom r s -> P_atom r s).
Proof.
  apply g_mut.
  - (* one branch *)
    intros r s Hs IH N C n1 n2 sx rest St Ok_ Ei E H1 H2.
    destruct n1 as [|n1]; [lia|]. cbn [rRExpr]. rewrite E.
    rewrite (proj1 (proj2 g_starts) r s Hs N rest).
    destruct (IH N C n1 n1 sx rest (or_introl St) Ok_ E ltac:(lia) ltac:(lia)) as (s' & X & I & R).
    rewrite X. cbn [obind]. destruct n2 as [|n2]; [lia|]. cbn [rCola]. rewrite I.
    exists s'. split. { destruct St as [->| ->]; reflexivity. }
    split; [exact I|]. do 6 (split; [apply R|]).
    intros b Hb Eb w c. rewrite (rd_lang _ _ _ R b Hb Eb) by apply (wf_initial _ (ok_wf _ Ok_)). rewrite Ei.
    rewrite (wcat_ext _ _ _ _ (fun w c => only_empty_between _ w c (ok_empty _ Ok_)) (fun w c => iff_refl _)).
    apply wcat_nil_l.
  - (* two *)
    intros r s r' s' Hs IH Hs' IH' N [C C'] n1 n2 sx rest St Ok_ Ei E H1 H2.
    apply Forall_app in N as [N N']. inversion_clear N' as [|? ? _ N''].
    rewrite <- !app_assoc in E.
    destruct n1 as [|n1]; [lia|]. cbn [rRExpr].
    assert (Tk : starts (token (rx_in sx)) = true) by (rewrite E; apply (proj1 (proj2 g_starts) r s Hs N)). rewrite Tk.
    destruct (IH N C n1 n1 sx ([124] ++ s' ++ rest) (or_intror eq_refl) Ok_ E ltac:(lia) ltac:(lia)) as (x1 & X & I & R).
    rewrite X. cbn [obind]. destruct n2 as [|n2]; [lia|]. cbn [rCola]. rewrite I. cbn [app token hd].
    change ((124 =? FIN_FICHERO) || (124 =? 41)) with false. change (124 =? 124) with true. cbv iota.
    rewrite consume_tok. cbn [obind].
    assert (O1 := reads_ok _ _ _ Ok_ R).
    set (x1' := mkRx (s' ++ rest) (rx_a x1) (rx_t x1) (initial (rx_t x1))).
    assert (O1' : ok_rx x1').
    { constructor; cbn; [apply O1|apply O1|apply (wf_initial _ (ok_wf _ O1))|apply O1]. }
    assert (Ls : (S (length (s' ++ rest)) <= length (rx_in sx))%nat) by (rewrite E, !app_length; cbn [length]; lia).
    destruct (IH' N'' C' n2 n2 x1' rest St O1' eq_refl eq_refl) as (x2 & X2 & I2 & A2 & B2 & G2 & S2 & V2 & Z2 & L2);
      [cbn [x1' rx_in]; lia|cbn [x1' rx_in]; lia|].
    assert (G := grows_trans _ _ _ (rd_grows _ _ _ R) G2). cbn [x1' rx_t rx_a] in *.
    assert (He : (rx_st x1 < nstates (rx_t x2))%nat) by (pose proof (rd_state _ _ _ R); pose proof (gr_size _ _ G2); lia).
    destruct (join_alternatives (rx_t x2) (rx_st x2) (rx_st x1) (gr_wf _ _ G2) S2 He) as (T' & XT & GT & NT & QT & LT).
    fold x1'. destruct (rRExpr n2 x1') as [x3| | | |]; cbn [obind] in X2 |- *; try discriminate.
    rewrite X2. cbn [obind].
    destruct (insertNewSingleTransduction 0 (rx_st x2) 0 (rx_t x2)) as [state t].
    destruct (linkStates (rx_st x1) state 0 0 t) as [t'| | | |]; cbn [obind] in XT |- *; try discriminate.
    assert (state = nstates (rx_t x2)) as -> by congruence. assert (t' = T') as -> by congruence.
    eexists. split; [reflexivity|]. cbn [rx_in rx_a rx_t rx_st]. split; [exact I2|]. split; [exact A2|].
    split; [eapply extends_trans; [apply R|exact B2]|]. split; [eapply grows_trans; eauto|]. split; [lia|].
    split. { intros cs c [H|H] Hin; [exact (covers_extends _ _ _ B2 (rd_cover _ _ _ R) cs c H Hin)|exact (V2 cs c H Hin)]. }
    split; [exact QT|].
    intros b Hb Eb w c.
    assert (Hi : (initial (rx_t sx) < nstates (rx_t x2))%nat).
    { pose proof (wf_initial _ (ok_wf _ Ok_)). pose proof (gr_size _ _ G). lia. }
    rewrite LT by exact Hi.
    assert (I1 : initial (rx_t x1) = initial (rx_t sx)) by apply R.
    rewrite <- I1 at 1. rewrite (L2 b Hb Eb w c).
    assert (Y : between (rx_t x2) 0 (initial (rx_t sx)) (rx_st x1) w c <-> W b (D r) w c).
    { rewrite (grows_between _ _ _ _ w c G2).
      - rewrite (rd_lang _ _ _ R b Hb ltac:(eapply extends_trans; eauto)) by apply (wf_initial _ (ok_wf _ Ok_)). rewrite Ei.
        rewrite (wcat_ext _ _ _ _ (fun w c => only_empty_between _ w c (ok_empty _ Ok_)) (fun w c => iff_refl _)).
        apply wcat_nil_l.
      - rewrite <- I1. apply (wf_initial _ (ok_wf _ O1)).
      - apply R. }
    rewrite Y. unfold W. cbn [den]. split.
    + intros [[-> (x & Hx & ->)]|[-> (x & Hx & ->)]]; (split; [reflexivity|]); exists x; auto.
    + intros [-> (x & [Hx|Hx] & ->)]; [right|left]; (split; [reflexivity|]); exists x; auto.
  - (* one term *)
    intros r s Hs IH N C n1 n2 sx rest St Ok_ E H1 H2.
    destruct (IH N C n1 sx rest (or_introl St) Ok_ E H1) as (s' & X & I & R). rewrite X. cbn [obind].
    assert (Ls := post_nonempty _ _ Hs). assert (Lx : (1 <= length (rx_in sx))%nat) by (rewrite E, app_length; destruct s; [easy|cbn; lia]).
    destruct n2 as [|n2]; [lia|]. exists s'. cbn [rRExprp]. rewrite I.
    split; [|auto]. destruct St as [[->| ->]| ->]; reflexivity.
  - (* more *)
    intros r s r' s' Hs IH Hs' IH' N [C C'] n1 n2 sx rest St Ok_ E H1 H2.
    apply Forall_app in N as [N N']. rewrite <- app_assoc in E.
    assert (St' : post_stop (s' ++ rest)) by (right; apply (proj1 (proj2 g_starts) r' s' Hs' N')).
    destruct (IH N C n1 sx (s' ++ rest) St' Ok_ E H1) as (x1 & X & I & R). rewrite X. cbn [obind].
    assert (Ls := post_nonempty _ _ Hs).
    assert (Lx : (S (length (rx_in x1)) <= length (rx_in sx))%nat) by (rewrite E, I, !app_length; destruct s; [easy|cbn [length]; lia]).
    destruct n2 as [|n2]; [lia|]. cbn [rRExprp].
    assert (Tk : starts (token (rx_in x1)) = true) by (rewrite I; apply (proj1 (proj2 g_starts) r' s' Hs' N' rest)). rewrite Tk.
    destruct (IH' N' C' n2 n2 x1 rest St (reads_ok _ _ _ Ok_ R) I ltac:(lia) ltac:(lia)) as (x2 & X2 & I2 & R2).
    exists x2. split; [exact X2|]. split; [exact I2|]. exact (reads_trans _ _ _ _ _ R R2).
  - (* plain *)
    intros r s Hs IH N C n sx rest St Ok_ E Hn.
    exact (atom_post r s 0 [] IH N C n sx rest (postop_none _ St) Ok_ ltac:(now rewrite app_nil_r) Hn).
  - intros r s Hs IH N C n sx rest St Ok_ E Hn. apply Forall_app in N as [N _].
    exact (atom_post r s 42 [42] IH N C n sx rest eq_refl Ok_ E Hn).
  - intros r s Hs IH N C n sx rest St Ok_ E Hn. apply Forall_app in N as [N _].
    exact (atom_post r s 63 [63] IH N C n sx rest eq_refl Ok_ E Hn).
  - intros r s Hs IH N C n sx rest St Ok_ E Hn. apply Forall_app in N as [N _].
    exact (atom_post r s 43 [43] IH N C n sx rest eq_refl Ok_ E Hn).
  - (* a symbol *)
    intros c s Hc N C n sx tl op rest Hp Ok_ E Hn.
    destruct n as [|n]; [lia|]. cbn [rTerm]. rewrite E, (char_token c s tl Hc N), (letra_char c s tl Hc N). cbn [obind].
    assert (X := letter_compiled c (rx_a sx) (ok_alph _ Ok_)).
    destruct (pair_code (c, c) (rx_a sx)) as [tag a].
    destruct (insertNewSingleTransduction tag (initial new_transducer) 0 new_transducer) as [e t].
    destruct X as (X1 & X2 & X3). rewrite Hp. cbn [obind]. exists a, (setFinal e 0 true t). auto.
  - (* parentheses *)
    intros r s Hs IH N C n sx tl op rest Hp Ok_ E Hn.
    cbn [app] in N. inversion_clear N as [|? ? _ N']. apply Forall_app in N' as [N' _].
    destruct n as [|n]; [lia|]. cbn [rTerm]. rewrite E. cbn [app token hd]. rewrite <- app_assoc.
    change (negb (isReserved 40) || (40 =? 92)) with false. change (40 =? 40) with true. cbv iota.
    rewrite consume_tok. cbn [obind].
    set (x0 := mkRx (s ++ [41] ++ tl) (rx_a sx) new_transducer (initial new_transducer)).
    assert (O0 : ok_rx x0).
    { constructor; cbn [x0 rx_a rx_t rx_st]; [apply Ok_|apply new_transducer_wf|cbn; lia|apply new_only_empty]. }
    assert (Ls : (S (length (rx_in x0)) = length (rx_in sx))%nat) by (rewrite E; cbn [x0 rx_in app length]; now rewrite <- app_assoc).
    destruct n as [|n]; [lia|]. cbn [rS]. cbn [rx_in x0]. rewrite (proj1 g_starts r s Hs N').
    fold x0.
    destruct (IH N' C n n x0 ([41] ++ tl) (or_intror eq_refl) O0 eq_refl eq_refl ltac:(lia) ltac:(lia))
      as (x1 & X & I & A1 & B1 & G1 & S1 & V1 & Z1 & L1).
    rewrite X. cbn [obind]. rewrite I. cbn [app]. rewrite consume_tok. cbn [obind]. rewrite Hp. cbn [obind].
    cbn [x0 rx_a rx_t] in *.
    exists (rx_a x1), (setFinal (rx_st x1) 0 true (rx_t x1)). split; [exact A1|]. split; [exact B1|]. split; [|reflexivity].
    constructor.
    + apply setFinal_wf; [apply G1|exact S1].
    + apply fin_insert_ne.
    + unfold lone_weight, setFinal. cbn [finals]. rewrite (gr_finals _ _ G1). reflexivity.
    + exact V1.
    + intros p f Hpf. unfold final_wt, setFinal in Hpf. cbn [finals] in Hpf. rewrite (gr_finals _ _ G1) in Hpf.
      destruct Hpf as [Hpf|[]]. assert (p = rx_st x1) as -> by congruence. exact Z1.
    + intros b Hb Eb w c. rewrite setFinal_wlang; [|apply G1|intros f H; unfold final_wt in H; rewrite (gr_finals _ _ G1) in H; exact H].
      rewrite (gr_initial _ _ G1), (L1 b Hb Eb w c), (grows_wlang _ _ new_transducer_wf G1).
      split; [|auto]. intros [(l & f & (q & _ & []) & _)|H]. exact H.
  - (* a class *)
    intros items s Hi Ne N C n sx tl op rest Hp Ok_ E Hn.
    cbn [app] in N. inversion_clear N as [|? ? _ N']. apply Forall_app in N' as [N' _].
    destruct n as [|n]; [lia|]. cbn [rTerm]. rewrite E. cbn [app token hd]. rewrite <- app_assoc.
    change (negb (isReserved 91) || (91 =? 92)) with false. change (91 =? 40) with false. change (91 =? 91) with true. cbv iota.
    rewrite consume_tok. cbn [obind]. unfold esp, esp_class. cbn [rx_in rx_a rx_t rx_st].
    assert (T : negb (isReserved (token (s ++ [93] ++ tl))) || (token (s ++ [93] ++ tl) =? 92) || (token (s ++ [93] ++ tl) =? 93) = true).
    { destruct Hi as [|c s0 it s' Hc _|c s0 d s1 it s' Hc _ _ _]; [reflexivity|..];
        rewrite <- app_assoc; rewrite (char_token c s0 _ Hc); auto; apply Forall_app in N' as [N' _]; exact N'. }
    rewrite T. destruct (items_lista items s Hi N' (S (length (s ++ [93] ++ tl))) tl [] ltac:(rewrite app_length; lia)) as (br & -> & M).
    cbn [obind]. cbn [app]. rewrite consume_tok. cbn [obind]. rewrite Hp. cbn [obind].
    assert (X := class_compiled br (rx_a sx) (ok_alph _ Ok_)).
    destruct (fold_left add_char br (rx_a sx, new_transducer)) as [a t]. destruct X as (X1 & X2 & X3).
    destruct br as [|c0 br'].
    { exfalso. destruct items as [|[lo hi] items]; [easy|]. destruct (M lo) as [_ M'].
      assert (lo <= hi) by (inversion Hi; lia). apply M'. left. exists lo, hi. cbn. split; [auto|lia]. }
    destruct X3 as (j & -> & Cj). cbn [obind]. exists a, j. split; [exact X1|]. split; [exact X2|]. split; [|reflexivity].
    apply (compiled_iff _ _ _ _ Cj). intros w. cbn [den].
    split; intros (c & -> & H); exists c; (split; [reflexivity|]); specialize (M c); [apply M in H as [H|[]]; exact H|apply M; auto].
  - (* a negated class *)
    intros items s Hi N C n sx tl op rest Hp Ok_ E Hn.
    cbn [app] in N. inversion_clear N as [|? ? _ N1]. inversion_clear N1 as [|? ? _ N2]. apply Forall_app in N2 as [N' _].
    destruct n as [|n]; [lia|]. cbn [rTerm]. rewrite E. cbn [app token hd]. rewrite <- app_assoc.
    change (negb (isReserved 91) || (91 =? 92)) with false. change (91 =? 40) with false. change (91 =? 91) with true. cbv iota.
    rewrite consume_tok. cbn [obind]. unfold esp, esp_class. cbn [rx_in rx_a rx_t rx_st token hd].
    change (negb (isReserved 94) || (94 =? 92) || (94 =? 93)) with false. change (94 =? 94) with true. cbv iota.
    rewrite consume_tok. cbn [obind].
    destruct (items_lista items s Hi N' (S (length (s ++ [93] ++ tl))) tl [] ltac:(rewrite app_length; lia)) as (br & -> & M).
    cbn [obind]. cbn [app]. rewrite consume_tok. cbn [obind]. rewrite Hp. cbn [obind].
    set (cs := filter (fun i => negb (existsb (Z.eqb i) br)) (zrange 0 255)).
    assert (Mc : forall c, In c cs <-> code_univ c /\ ~ in_items c items).
    { intros c. unfold cs. rewrite filter_In, zrange_in. unfold code_univ.
      assert (Z : existsb (Z.eqb c) br = true <-> in_items c items).
      { rewrite existsb_exists. split.
        - intros (x & Hx & Ex). apply Z.eqb_eq in Ex. subst x. apply M in Hx as [Hx|[]]. exact Hx.
        - intros Hx. exists c. rewrite Z.eqb_refl. split; [|reflexivity]. apply M. auto. }
      destruct (existsb (Z.eqb c) br); cbn [negb]; intuition congruence. }
    assert (X := class_compiled cs (rx_a sx) (ok_alph _ Ok_)).
    destruct (fold_left add_char cs (rx_a sx, new_transducer)) as [a t]. destruct X as (X1 & X2 & X3).
    destruct cs as [|c0 cs'].
    { exfalso. cbn in C. destruct (C eq_refl) as (c & Hc). apply Mc in Hc. destruct Hc. }
    destruct X3 as (j & -> & Cj). cbn [obind]. exists a, j. split; [exact X1|]. split; [exact X2|]. split; [|reflexivity].
    apply (compiled_iff _ _ _ _ Cj). intros w. cbn [den].
    split; intros (c & -> & H); exists c; (split; [reflexivity|]); now apply Mc.
Qed.
