(** Weights in a section of literal entries: the tree of their words. *)
From Verif Require Import Base AlphabetModel AlphabetProofs AlphabetProps TransducerModel TransducerSpec
  TransducerProofs ReverseProofs MinimizeProofs RationalProofs RegexpProofs RegexpProps DeterminizeProofs TrieProofs CompilerModel CompilerSpec CompilerProofs.

(** * Words with their weight *)
Inductive walk (T : transducer) : list Z -> Z -> nat -> Prop :=
| walk_here : walk T [] 0 (initial T)
| walk_arc u c p a q w : walk T u c p -> has_arc T p a q w -> walk T (u ++ [a]) (c + w) q.

Lemma walk_path : forall T u c q, (forall p a q w, has_arc T p a q w -> a <> 0) ->
  (walk T u c q <-> exists l, path T (initial T) l q /\ word_of 0 l = u /\ cost_of l = c).
Proof.
  intros T u c q Nz. split.
  - intros H. induction H as [|u c p a q w _ (l & Hl & <- & <-) Ha]; [exists []; split; [constructor|auto]|].
    exists (l ++ [(a, w)]). split; [exact (path_snoc _ _ _ _ _ _ _ Hl Ha)|].
    rewrite word_app, word_sym, cost_app, (sym_nonzero a) by exact (Nz _ _ _ _ Ha). cbn. split; [reflexivity|lia].
  - intros (l & Hl & <- & <-). revert q Hl. induction l as [|[a w] l IH] using rev_ind; intros q Hl.
    + inversion Hl. subst. constructor.
    + apply path_app_inv in Hl as (r & H1 & H2). inversion H2 as [|? ? ? ? ? ? Ha H3]. subst. inversion H3. subst.
      rewrite word_app, word_sym, cost_app, (sym_nonzero a) by exact (Nz _ _ _ _ Ha).
      assert (X := walk_arc _ _ _ r _ _ _ (IH r H1) Ha). cbn in X |- *. rewrite Z.add_0_r. exact X.
Qed.

Definition prefix_of (u v : list Z) : Prop := exists x, v = u ++ x.
Definition beyond (V : list (list Z * Z)) (v : list Z) : Prop :=
  forall u c, In (u, c) V -> ~ prefix_of u v /\ ~ prefix_of v u.

(** The words [V] with their weights, and the beginning of [v] being added. *)
Record wtree (T : transducer) (V : list (list Z * Z)) (v : list Z) : Prop := {
  wt_wf : wf T;
  wt_nz : forall p a q w, has_arc T p a q w -> a <> 0;
  wt_one : forall p a, (length (equal_range a (arcs_of T p)) <= 1)%nat;
  wt_back : forall p a w p' a' w' q, has_arc T p a q w -> has_arc T p' a' q w' -> p = p' /\ a = a' /\ w = w';
  wt_root : forall p a w, ~ has_arc T p a (initial T) w;
  wt_zero : forall p f, final_wt T p f -> f = 0;
  wt_words : forall u c q, walk T u c q ->
    (is_final T q /\ In (u, c) V)
    \/ (~ is_final T q /\ c = 0 /\ (u = [] \/ (exists x y, x <> [] /\ In (u ++ x, y) V) \/ exists x, x <> [] /\ v = u ++ x));
  wt_all : forall u c, In (u, c) V -> exists q, walk T u c q /\ is_final T q
}.
Lemma wtree_new : wtree new_transducer [] [].
Proof.
  assert (N : forall p b q w, ~ has_arc new_transducer p b q w).
  { intros p b q w H. unfold has_arc, arcs_of in H. cbn in H. destruct p as [|[|]]; destruct H. }
  constructor.
  - apply new_transducer_wf.
  - intros p a q w H. now apply N in H.
  - intros p a. unfold arcs_of. cbn. destruct p as [|[|]]; cbn; lia.
  - intros p a w p' a' w' q H. now apply N in H.
  - intros p a w. apply N.
  - intros p f [].
  - intros u c q H. destruct H as [|u c p a q w _ H]; [|now apply N in H]. right. split; [intros (f & [])|]. auto.
  - intros u c [].
Qed.
Lemma walk_back : forall T V v, wtree T V v -> forall u c q, walk T u c q -> forall u' c', walk T u' c' q -> u = u' /\ c = c'.
Proof.
  intros T V v H u c q R. induction R as [|u c p a q w R IH Ha]; intros u' c' R'.
  - inversion R' as [|u0 c0 p a q w R0 Ha]; [auto|]. subst. now apply (wt_root _ _ _ H) in Ha.
  - inversion R' as [E|u0 c0 p0 a0 q0 w0 R0 Ha0].
    + subst q. now apply (wt_root _ _ _ H) in Ha.
    + subst. destruct (wt_back _ _ _ H _ _ _ _ _ _ _ Ha Ha0) as (-> & -> & ->). destruct (IH _ _ R0) as [-> ->]. auto.
Qed.
Lemma walk_lt : forall T u c q, wf T -> walk T u c q -> (q < nstates T)%nat.
Proof. intros T u c q W H. destruct H as [|u c p a q w _ Ha]; [apply W|exact (wf_arcs T W _ _ _ _ Ha)]. Qed.
Lemma wtree_start : forall T V v, wtree T V [] -> wtree T V v.
Proof.
  intros T V v [H1 H2 H3 H4 H5 H6 H7 H8]. constructor; auto. intros u c q R. destruct (H7 u c q R) as [X|(X & Y & [Z|[Z|(x & Nx & Z)]])].
  - auto.
  - right. auto.
  - right. auto.
  - symmetry in Z. apply app_eq_nil in Z as [_ ->]. contradiction.
Qed.

(** ** One more state *)
Section Grow.
  Context (T : transducer) (V : list (list Z * Z)) (v p : list Z) (e : nat) (b : Z) (rest : list Z) (w : Z).
  Context (H : wtree T V v) (Hv : v = p ++ b :: rest) (Hb : b <> 0) (He : walk T p 0 e)
          (Hr : equal_range b (arcs_of T e) = []) (By : beyond V v).
  Let T' := add_arc e (b, (nstates T, w)) (snd (newState T)).

  Lemma grow_arcs : forall x a q y, has_arc T' x a q y <-> has_arc T x a q y \/ (x = e /\ a = b /\ q = nstates T /\ y = w).
  Proof.
    intros x a q y. assert (Le := walk_lt T p 0 e (wt_wf _ _ _ H) He).
    destruct (newState_spec T) as (N1 & N2 & N3 & N4 & N5). unfold T'. rewrite has_arc_add by lia. unfold has_arc at 1. rewrite N5. unfold has_arc. split.
    - intros [X|[-> X]]; [auto|]. right. repeat split; congruence.
    - intros [X|(-> & -> & -> & ->)]; auto.
  Qed.
  Lemma grow_walk : forall u c q, walk T' u c q <-> walk T u c q \/ (u = p ++ [b] /\ c = w /\ q = nstates T).
  Proof.
    assert (W := wt_wf _ _ _ H). intros u c q. split.
    - intros R. induction R as [|u c x a q y R IH Ha]; [left; exact (walk_here T)|]. destruct IH as [IH|(-> & -> & ->)].
      + apply grow_arcs in Ha as [Ha|(-> & -> & -> & ->)]; [left; exact (walk_arc _ _ _ _ _ _ _ IH Ha)|].
        right. destruct (walk_back T V v H _ _ _ IH _ _ He) as [-> ->]. repeat split; lia.
      + apply grow_arcs in Ha as [Ha|(X & _)]; [apply has_arc_lt in Ha; lia|]. assert (Le := walk_lt T p 0 e W He). lia.
    - assert (Old : forall u c q, walk T u c q -> walk T' u c q).
      { intros u0 c0 q0 R. induction R as [|u0 c0 x a q0 y R IH Ha]; [exact (walk_here T')|]. apply (walk_arc _ _ _ x); [exact IH|]. apply grow_arcs. now left. }
      intros [R|(-> & -> & ->)]; [now apply Old|].
      enough (X : walk T' (p ++ [b]) (0 + w) (nstates T)) by (rewrite Z.add_0_l in X; exact X).
      apply (walk_arc _ _ _ e); [now apply Old|]. apply grow_arcs. right. auto.
  Qed.
  Lemma grow_wf : wf T' /\ finals T' = finals T /\ initial T' = initial T /\ nstates T' = S (nstates T).
  Proof.
    assert (Le := walk_lt T p 0 e (wt_wf _ _ _ H) He). assert (W := wt_wf _ _ _ H).
    destruct (newState_spec T) as (N1 & N2 & N3 & N4 & N5). split; [apply add_arc_wf; [now apply newState_wf|lia|lia]|].
    split; [exact N4|]. split; [exact N3|]. unfold T'. rewrite nstates_add_arc. exact N2.
  Qed.
  Lemma grow_shape : (forall x a q y, has_arc T' x a q y -> a <> 0)
    /\ (forall x a, (length (equal_range a (arcs_of T' x)) <= 1)%nat)
    /\ (forall x a y x' a' y' q, has_arc T' x a q y -> has_arc T' x' a' q y' -> x = x' /\ a = a' /\ y = y')
    /\ (forall x a y, ~ has_arc T' x a (initial T') y).
  Proof.
    assert (Le := walk_lt T p 0 e (wt_wf _ _ _ H) He). assert (W := wt_wf _ _ _ H).
    destruct (newState_spec T) as (N1 & N2 & N3 & N4 & N5). destruct grow_wf as (_ & _ & I' & _).
    split; [|split; [|split]].
    - intros x a q y Ha. apply grow_arcs in Ha as [Ha|(_ & -> & _)]; [exact (wt_nz _ _ _ H _ _ _ _ Ha)|exact Hb].
    - intros x a. destruct (Z.eq_dec a b) as [->|Na].
      + unfold T'. destruct (Nat.eq_dec x e) as [->|Ne].
        * rewrite arcs_add_same by lia. rewrite N5. change b with (a_tag (b, (nstates T, w))) at 1.
          rewrite range_insert_same. cbn [a_tag fst]. rewrite Hr. cbn. lia.
        * rewrite arcs_add_other by exact Ne. rewrite N5. apply H.
      + unfold T'. rewrite range_add_other; [rewrite N5; apply H|lia|cbn; lia].
    - intros x a y x' a' y' q H1 H2. apply grow_arcs in H1, H2.
      destruct H1 as [H1|(-> & -> & -> & ->)], H2 as [H2|(-> & -> & E & ->)]; auto.
      + exact (wt_back _ _ _ H _ _ _ _ _ _ _ H1 H2).
      + subst q. apply (wf_arcs T W) in H1. lia.
      + apply (wf_arcs T W) in H2. lia.
    - intros x a y Ha. rewrite I' in Ha. apply grow_arcs in Ha as [Ha|(_ & _ & E & _)]; [now apply (wt_root _ _ _ H) in Ha|].
      assert (X := wf_initial T W). lia.
  Qed.
  Lemma new_not_final : ~ is_final T (nstates T).
  Proof. intros (f & Hf). apply (wf_finals T (wt_wf _ _ _ H)) in Hf. lia. Qed.

  Lemma grow_inner : rest <> [] -> w = 0 -> wtree T' V v /\ walk T' (p ++ [b]) 0 (nstates T).
  Proof.
    intros Nr W0. destruct grow_wf as (W' & F' & I' & N'). destruct grow_shape as (S1 & S2 & S3 & S4).
    assert (Fin : forall q, is_final T' q <-> is_final T q) by (intros q; unfold is_final, final_wt; now rewrite F').
    split; [|apply grow_walk; right; auto]. constructor; auto.
    - intros x f Hf. apply (wt_zero _ _ _ H x f). unfold final_wt in *. now rewrite <- F'.
    - intros u c q R. apply grow_walk in R as [R|(-> & -> & ->)].
      + destruct (wt_words _ _ _ H u c q R) as [[X Y]|[X Y]]; [left|right]; rewrite Fin; auto.
      + right. rewrite Fin. split; [apply new_not_final|]. split; [exact W0|]. right. right. exists rest. rewrite <- app_assoc. auto.
    - intros u c Hu. destruct (wt_all _ _ _ H u c Hu) as (q & R & Fq). exists q. rewrite Fin. split; [apply grow_walk; now left|exact Fq].
  Qed.
  Lemma grow_last : rest = [] -> wtree (setFinal (nstates T) 0 true T') ((v, w) :: V) [].
  Proof.
    intros Er. destruct grow_wf as (W' & F' & I' & N'). destruct grow_shape as (S1 & S2 & S3 & S4).
    set (T2 := setFinal (nstates T) 0 true T').
    assert (Ev : p ++ [b] = v) by now rewrite Hv, Er.
    assert (Fin : forall q, is_final T2 q <-> is_final T q \/ q = nstates T).
    { intros q. unfold T2. rewrite setFinal_final by exact W'. unfold is_final, final_wt. now rewrite F'. }
    assert (Wk : forall u c q, walk T2 u c q <-> walk T u c q \/ (u = v /\ c = w /\ q = nstates T)).
    { intros u c q. rewrite <- Ev, <- grow_walk. split; intros R; (induction R as [|u c x a q y R IH Ha]; [exact (walk_here T') || exact (walk_here T2)|exact (walk_arc _ _ _ _ _ _ _ IH Ha)]). }
    constructor.
    - apply setFinal_wf; [exact W'|lia].
    - exact S1.
    - exact S2.
    - exact S3.
    - exact S4.
    - intros x f Hf. unfold final_wt, T2, setFinal in Hf. cbn [finals] in Hf. apply fin_insert_in in Hf as [Hf|(_ & -> & _)]; [|reflexivity|apply (wf_finals_sorted T' W')].
      apply (wt_zero _ _ _ H x f). unfold final_wt. now rewrite <- F'.
    - intros u c q R. apply Wk in R as [R|(-> & -> & ->)].
      + assert (Lq := walk_lt _ _ _ _ (wt_wf _ _ _ H) R).
        destruct (wt_words _ _ _ H u c q R) as [[X Y]|(X & -> & Y)]; [left; rewrite Fin; cbn [In]; auto|right].
        rewrite Fin. split; [intros [Z|Z]; [contradiction|lia]|]. split; [reflexivity|].
        destruct Y as [Y|[(x & y & Nx & Y)|(x & Nx & Y)]]; [auto| |].
        * right. left. exists x, y. cbn [In]. auto.
        * right. left. exists x, w. split; [exact Nx|]. left. now rewrite Y.
      + left. rewrite Fin. cbn [In]. auto.
    - intros u c [E|Hu].
      + assert (u = v) as -> by congruence. assert (c = w) as -> by congruence. exists (nstates T). rewrite Wk, Fin. auto.
      + destruct (wt_all _ _ _ H u c Hu) as (q & R & Fq). exists q. rewrite Wk, Fin. auto.
  Qed.
End Grow.

Lemma follow_inner : forall T V v p b rest e x, wtree T V v -> v = p ++ b :: rest -> walk T p 0 e ->
  equal_range b (arcs_of T e) = [x] -> beyond V v -> rest <> [] /\ walk T (p ++ [b]) 0 (a_dst x).
Proof.
  intros T V v p b rest e [b' [q w]] H Hv He E By.
  assert (X : In (b', (q, w)) (equal_range b (arcs_of T e))) by (rewrite E; now left). apply equal_range_in in X as [X Y]. cbn in Y. subst b'.
  assert (R : walk T (p ++ [b]) (0 + w) q) by exact (walk_arc _ _ _ _ _ _ _ He X).
  destruct (wt_words _ _ _ H _ _ _ R) as [[_ In1]|(_ & W0 & [Z|[(x & y & Nx & Z)|(x & Nx & Z)]])].
  - exfalso. apply (proj1 (By _ _ In1)). exists rest. rewrite <- app_assoc. exact Hv.
  - destruct p; discriminate.
  - split.
    + intros ->. apply (proj2 (By _ _ Z)). exists x. now rewrite Hv.
    + cbn [a_dst fst snd]. replace 0 with (0 + w) by exact W0. exact R.
  - split.
    + intros ->. rewrite Hv in Z. rewrite <- (app_nil_r (p ++ [b])) in Z at 1. apply app_inv_head in Z. congruence.
    + cbn [a_dst fst snd]. replace 0 with (0 + w) by exact W0. exact R.
Qed.

(** * A literal *)
Lemma reads_snoc : forall a u w tag p, reads a u w -> decode tag a = Ok p -> reads a (u ++ [tag]) (w ++ [p]).
Proof. intros. apply Forall2_app; [assumption|]. now repeat constructor. Qed.

(** The words of [V] are those of [L] (pairs and weights). *)
Definition named (a : alphabet) (V : list (list Z * Z)) (L : list (list (Z * Z) * Z)) : Prop :=
  Forall2 (fun x y => reads a (fst x) (fst y) /\ snd x = snd y) V L.
Lemma named_length : forall a V L, named a V L -> length V = length L.
Proof. intros a V L H. induction H; cbn; congruence. Qed.
Lemma named_extends : forall a b V L, extends a b -> named a V L -> named b V L.
Proof.
  intros a b V L E H. induction H as [|x y V L [H1 H2] H IH]; constructor; [|exact IH]. split; [exact (reads_extends a b _ _ E H1)|exact H2].
Qed.
Definition pair_prefix (u v : list (Z * Z)) : Prop := exists x, v = u ++ x.
Lemma reads_prefix : forall a u v x y, reads a u x -> reads a v y -> prefix_of u v -> pair_prefix x y.
Proof.
  intros a u v x y H1 H2 (z & ->). apply Forall2_app_inv_l in H2 as (y1 & y2 & H3 & H4 & ->). exists y2. f_equal.
  clear - H1 H3. revert y1 H3. induction H1 as [|tag p u w Hp H IH]; intros y1 H3; inversion H3; subst; [reflexivity|]. f_equal; [congruence|auto].
Qed.
Definition apart (x y : list (Z * Z)) : Prop := ~ pair_prefix x y /\ ~ pair_prefix y x.
Lemma named_beyond : forall a V L v x, named a V L -> reads a v x -> (forall y c, In (y, c) L -> apart y x) -> beyond V v.
Proof.
  intros a V L v x N R H u c Hu.
  assert (exists y d, In (y, d) L /\ reads a u y) as (y & d & Hy & Ry).
  { clear H. induction N as [|[u' c'] [y' d'] V L [N1 N2] N IH]; [destruct Hu|]. destruct Hu as [Hu|Hu].
    - assert (u' = u) as -> by congruence. exists y', d'. split; [now left|exact N1].
    - destruct (IH Hu) as (y & d & H1 & H2). exists y, d. split; [now right|exact H2]. }
  destruct (H y d Hy) as [H1 H2]. split; intros P.
  - apply H1. exact (reads_prefix a u v y x Ry R P).
  - apply H2. exact (reads_prefix a v u x y R Ry P).
Qed.

(** The codes of pairs asked for in turn. *)
Fixpoint pair_codes (ps : list (Z * Z)) (a : alphabet) : list Z * alphabet :=
  match ps with
  | [] => ([], a)
  | p :: ps => let '(tag, a) := pair_code p a in let '(u, a) := pair_codes ps a in (tag :: u, a)
  end.
Lemma pair_codes_ok : forall ps a, alph_inv0 a -> let '(u, a') := pair_codes ps a in
  alph_inv0 a' /\ extends a a' /\ reads a' u ps.
Proof.
  induction ps as [|p ps IH]; intros a Ha; cbn [pair_codes].
  - split; [exact Ha|]. split; [apply extends_refl|constructor].
  - assert (P := pair_code_ok p a Ha). destruct (pair_code p a) as [tag a1]. destruct P as (Ha1 & X1 & D1 & _).
    specialize (IH a1 Ha1). destruct (pair_codes ps a1) as [u a2]. destruct IH as (Ha2 & X2 & R2).
    split; [exact Ha2|]. split; [exact (extends_trans _ _ _ X1 X2)|]. constructor; [exact (extends_decode _ _ _ _ X2 D1)|exact R2].
Qed.
Lemma match_rounds_weight : forall s w rs a T V p e, acx s = [] -> sep s = None -> alph_inv0 a ->
  (forall q, In q (map round_pair rs) -> q <> (0, 0)) -> rs <> [] ->
  let '(u, a') := pair_codes (map round_pair rs) a in
  wtree T V (p ++ u) -> walk T p 0 e -> beyond V (p ++ u) ->
  exists e' T', match_rounds s rs w a e T = Ok (a', e', T') /\ wtree (setFinal e' 0 true T') ((p ++ u, w) :: V) [].
Proof.
  intros s w. induction rs as [|[ol r] rs IH]; intros a T V p e Hx Hs Ha Nz Nr; [contradiction|].
  cbn [map pair_codes match_rounds]. change (round_pair (ol, r)) with (match ol with Some l => l | None => 0 end, r).
  set (q := (match ol with Some l => l | None => 0 end, r)).
  assert (PC := pair_code_ok q a Ha). destruct (pair_code q a) as [tag a1]. destruct PC as (Ha1 & X1 & Dt & _).
  assert (Nt : tag <> 0) by (apply (decode_nonzero a1 tag q Ha1 Dt); apply Nz; now left).
  specialize (fun T p e => IH a1 T V p e Hx Hs Ha1 (fun q Hq => Nz q (or_intror Hq))).
  destruct (pair_codes (map round_pair rs) a1) as [u a2] eqn:Ec.
  intros H He By. assert (Le := walk_lt _ _ _ _ (wt_wf _ _ _ H) He).
  unfold insertSingleTransduction. replace (e <? nstates T)%nat with true by (symmetry; apply Nat.ltb_lt; exact Le).
  assert (One := wt_one _ _ _ H e tag).
  assert (Enil : rs = [] -> u = [] /\ a2 = a1) by (intros ->; cbn in Ec; split; congruence).
  assert (Enn : rs <> [] -> u <> []).
  { intros N ->. destruct rs as [|x rs]; [contradiction|]. cbn [map pair_codes] in Ec. destruct (pair_code (round_pair x) a1). destruct (pair_codes (map round_pair rs) a0). discriminate. }
  destruct (equal_range tag (arcs_of T e)) as [|x [|y l]] eqn:E; [| |cbn in One; lia].
  - change (let '(state, t) := newState T in (Some state, add_arc e (tag, (state, match rs with [] => w | _ :: _ => 0 end)) t))
      with (Some (nstates T), add_arc e (tag, (nstates T, match rs with [] => w | _ :: _ => 0 end)) (snd (newState T))).
    cbv iota beta. unfold loop_back. rewrite Hs, Hx. cbn [obind].
    replace (match ol with Some l => acx_find l [] | None => [] end) with (@nil Z) by (destruct ol; reflexivity). cbn [link_acx obind].
    destruct rs as [|y rs].
    + destruct (Enil eq_refl) as [-> ->]. cbn [match_rounds]. eexists _, _. split; [reflexivity|].
      exact (grow_last T V (p ++ [tag]) p e tag [] w H eq_refl Nt He E eq_refl).
    + destruct (grow_inner T V (p ++ tag :: u) p e tag u 0 H eq_refl Nt He E) as (H1 & W1); [apply Enn; discriminate|reflexivity|].
      specialize (IH (add_arc e (tag, (nstates T, 0)) (snd (newState T))) (p ++ [tag]) (nstates T) ltac:(discriminate)).
      rewrite <- app_assoc in IH. cbn [app] in IH. exact (IH H1 W1 By).
  - destruct (follow_inner T V (p ++ tag :: u) p tag u e x H eq_refl He E By) as [Nu W1].
    cbv iota beta. unfold loop_back. rewrite Hs, Hx. cbn [obind].
    replace (match ol with Some l => acx_find l [] | None => [] end) with (@nil Z) by (destruct ol; reflexivity). cbn [link_acx obind].
    specialize (IH T (p ++ [tag]) (a_dst x)). rewrite <- app_assoc in IH. cbn [app] in IH. apply IH; auto.
    intros N. destruct (Enil N) as [N' _]. contradiction.
Qed.

(** * Entries that are literals *)
Definition literal (e : list Z * list Z * Z) : list entry_token := let '(pi, pd, w) := e in [Single pi pd w].
Definition literal_word (left_to_right : bool) (e : list Z * list Z * Z) : list (Z * Z) :=
  let '(pi, pd, _) := e in if left_to_right then align pi pd else align pd pi.
Definition literal_weight (e : list Z * list Z * Z) : Z := snd e.
Definition literal_ok (e : list Z * list Z * Z) : Prop :=
  let '(pi, pd, _) := e in ~ In 0 pi /\ ~ In 0 pd /\ (pi <> [] \/ pd <> []).

Lemma align_some : forall ls rs, align ls rs = [] -> ls = [] /\ rs = [].
Proof. intros [|x ls] [|y rs] H; cbn in H; auto; discriminate. Qed.
Lemma literal_entry : forall s n c V L x, acx s = [] -> sep s = None -> alph_inv0 (c_alph c) -> current_paradigm c = [] -> current_section c = n ->
  wtree (name_get n new_transducer (c_secs c)) V [] -> named (c_alph c) V L -> literal_ok x ->
  (forall y d, In (y, d) L -> apart y (literal_word (lr s) x)) ->
  exists c' v T', proc s (Entry (literal x)) c = Ok c' /\ alph_inv0 (c_alph c') /\ extends (c_alph c) (c_alph c')
    /\ current_paradigm c' = [] /\ current_section c' = n /\ c_secs c' = name_set n T' (c_secs c)
    /\ wtree T' ((v, literal_weight x) :: V) [] /\ named (c_alph c') ((v, literal_weight x) :: V) ((literal_word (lr s) x, literal_weight x) :: L).
Proof.
  intros s n c V L [[pi pd] w] Hx Hs Ha Hc Hn H N (N1 & N2 & Ne) Ap. cbn [literal literal_weight snd]. cbn [proc scan_entry obind].
  unfold insertEntryTokens. rewrite Hc. cbn [section_tokens]. rewrite Hn. set (T := name_get n new_transducer (c_secs c)) in *.
  unfold insert_single, matchTransduction. cbn [w_alph w_t w_e w_pars].
  set (q := if lr s then (pi, pd) else (pd, pi)).
  assert (Eq : literal_word (lr s) (pi, pd, w) = align (fst q) (snd q)) by (unfold q; cbn; destruct (lr s); reflexivity).
  assert (Nq : ~ In 0 (fst q) /\ ~ In 0 (snd q) /\ (fst q <> [] \/ snd q <> [])) by (unfold q; destruct (lr s); intuition).
  rewrite Eq in *. clear Eq. destruct q as [ls rs]. cbn [fst snd] in *. destruct Nq as (M1 & M2 & M3).
  replace (match pi with
      | [] => match pd with
              | [] => let '(state, t) := insertNewSingleTransduction 0 (initial T) 0 T in Ok (c_alph c, state, t)
              | _ :: _ => match_rounds s (rounds ls rs) w (c_alph c) (initial T) T
              end
      | _ :: _ => match_rounds s (rounds ls rs) w (c_alph c) (initial T) T
      end) with (match_rounds s (rounds ls rs) w (c_alph c) (initial T) T) by (destruct pi, pd; try reflexivity; destruct Ne; contradiction).
  assert (PC := pair_codes_ok (map round_pair (rounds ls rs)) (c_alph c) Ha).
  assert (MR := match_rounds_weight s w (rounds ls rs) (c_alph c) T V [] (initial T) Hx Hs Ha).
  destruct (pair_codes (map round_pair (rounds ls rs)) (c_alph c)) as [u a']. destruct PC as (Ha' & X' & R'). cbn [app] in MR.
  rewrite rounds_align in R'.
  destruct MR as (e' & T' & E & H').
  - intros p Hp. rewrite rounds_align in Hp. exact (align_nonzero ls rs p M1 M2 Hp).
  - intros Er. assert (X := rounds_align ls rs). rewrite Er in X. symmetry in X. apply align_some in X as [-> ->]. destruct M3; contradiction.
  - now apply wtree_start.
  - constructor.
  - exact (named_beyond a' V L u (align ls rs) (named_extends _ _ _ _ X' N) R' Ap).
  - rewrite E. cbn [obind]. cbn [w_alph w_t w_e w_pars]. eexists _, u, _. split; [reflexivity|]. cbn [c_alph c_secs current_paradigm current_section].
    split; [exact Ha'|]. split; [exact X'|]. split; [reflexivity|]. split; [reflexivity|]. split; [reflexivity|]. split; [exact H'|].
    constructor; [auto|]. exact (named_extends _ _ _ _ X' N).
Qed.

Lemma literal_entries : forall s n, acx s = [] -> sep s = None -> forall es c V L,
  alph_inv0 (c_alph c) -> current_paradigm c = [] -> current_section c = n ->
  wtree (name_get n new_transducer (c_secs c)) V [] -> named (c_alph c) V L -> (c_secs c = [] \/ exists T, c_secs c = [(n, T)]) ->
  Forall literal_ok es -> ForallOrdPairs apart (map (literal_word (lr s)) es) ->
  (forall x y d, In x es -> In (y, d) L -> apart y (literal_word (lr s) x)) ->
  exists c' V', procs s (map Entry (map literal es)) c = Ok c' /\ alph_inv0 (c_alph c') /\ extends (c_alph c) (c_alph c')
    /\ wtree (name_get n new_transducer (c_secs c')) V' []
    /\ named (c_alph c') V' (rev (map (fun x => (literal_word (lr s) x, literal_weight x)) es) ++ L)
    /\ ((es = [] /\ c_secs c' = c_secs c) \/ exists T, c_secs c' = [(n, T)]).
Proof.
  intros s n Hx Hs. induction es as [|x es IH]; intros c V L Ha Hc Hn H N Sec Lo Ap ApL.
  - exists c, V. cbn. split; [reflexivity|]. split; [exact Ha|]. split; [apply extends_refl|]. auto.
  - cbn [map] in Ap. inversion Ap as [|? ? Ap1 Ap2]. subst. rewrite Forall_forall in Ap1.
    destruct (literal_entry s _ c V L x Hx Hs Ha Hc eq_refl H N (Forall_inv Lo)) as (c1 & v & T1 & E1 & Ha1 & X1 & Hc1 & Hn1 & S1 & H1 & N1).
    { intros y d Hy. apply (ApL x y d); [now left|exact Hy]. }
    assert (S1' : c_secs c1 = [(current_section c, T1)]).
    { rewrite S1. destruct Sec as [-> |(T & ->)]; cbn [name_set]; [reflexivity|]. destruct (ustr_eq_dec (current_section c) (current_section c)); [reflexivity|contradiction]. }
    destruct (IH c1 ((v, literal_weight x) :: V) ((literal_word (lr s) x, literal_weight x) :: L)) as (c2 & V2 & E2 & Ha2 & X2 & H2 & N2 & S2).
    + exact Ha1.
    + exact Hc1.
    + exact Hn1.
    + rewrite S1', Hn1 || rewrite S1'. unfold name_get. cbn [name_find]. destruct (ustr_eq_dec (current_section c) (current_section c)); [exact H1|contradiction].
    + exact N1.
    + right. exists T1. exact S1'.
    + exact (Forall_inv_tail Lo).
    + exact Ap2.
    + intros z y d Hz [Hy|Hy].
      * assert (y = literal_word (lr s) x) as -> by congruence. apply Ap1. apply in_map. exact Hz.
      * apply (ApL z y d); [now right|exact Hy].
    + exists c2, V2. cbn [map procs]. rewrite E1. cbn [obind]. split; [exact E2|]. split; [exact Ha2|]. split; [exact (extends_trans _ _ _ X1 X2)|].
      split; [exact H2|]. cbn [rev]. rewrite <- app_assoc. split; [exact N2|]. right. destruct S2 as [[_ S2]|S2]; [|exact S2].
      exists T1. now rewrite S2.
Qed.

Lemma wtree_wlang : forall T V u c, wtree T V [] -> (wlang T 0 u c <-> In (u, c) V).
Proof.
  intros T V u c H. split.
  - intros (l & f & (q & Hp & Hf) & Hw & Hc). rewrite (wt_zero _ _ _ H q f Hf) in Hc.
    assert (R : walk T u c q) by (apply (walk_path T u c q (wt_nz _ _ _ H)); exists l; split; [exact Hp|split; [exact Hw|lia]]).
    destruct (wt_words _ _ _ H u c q R) as [[_ X]|[X _]]; [exact X|]. exfalso. apply X. now exists f.
  - intros Hu. destruct (wt_all _ _ _ H u c Hu) as (q & R & (f & Hf)). apply (walk_path T u c q (wt_nz _ _ _ H)) in R as (l & Hp & Hw & Hc).
    exists l, f. split; [exists q; auto|]. split; [exact Hw|]. rewrite (wt_zero _ _ _ H q f Hf). lia.
Qed.
Lemma named_in : forall a V L u c, alph_inv0 a -> named a V L ->
  (In (u, c) V <-> exists w, In (w, c) L /\ reads a u w).
Proof.
  intros a V L u c Ha N. induction N as [|[u' c'] [w' d'] V L [N1 N2] N IH]; [split; [intros []|intros (w & [] & _)]|]. cbn [fst snd In] in *. split.
  - intros [E|H].
    + exists w'. assert (u' = u) as -> by congruence. split; [left; congruence|exact N1].
    + apply IH in H as (w & H1 & H2). exists w. auto.
  - intros (w & [E|H] & R).
    + left. assert (w' = w) as -> by congruence. assert (u' = u) as -> by exact (reads_unique a _ _ _ (proj1 Ha) N1 R). congruence.
    + right. apply IH. exists w. auto.
Qed.
Lemma compile_literals : forall s a n es, acx s = [] -> sep s = None -> alph_inv0 a -> es <> [] -> Forall literal_ok es ->
  ForallOrdPairs apart (map (literal_word (lr s)) es) ->
  exists a' t, compile s a (dict_events [Sec n (map literal es)]) = Ok (a', [(n, t)]) /\ alph_inv0 a' /\ extends a a' /\ wf t
    /\ forall u c, wlang t 0 u c <-> exists x, In x es /\ literal_weight x = c /\ reads a' u (literal_word (lr s) x).
Proof.
  intros s a n es Hx Hs Ha Ne Lo Ap. unfold compile, dict_events. cbn [flat_map item_events]. rewrite app_nil_r. cbn [procs proc obind new_compiler].
  destruct (literal_entries s n Hx Hs es (mkComp a [] [] [] [] n) [] []) as (c1 & V & E & Ha1 & X1 & H & N & S1);
    cbn [c_alph c_secs current_paradigm current_section]; auto.
  { apply wtree_new. } { constructor. } { intros x y d _ []. }
  rewrite procs_app. cbn [new_compiler c_alph c_pars c_secs c_caches current_paradigm]. rewrite E. cbn [obind procs proc c_secs c_alph]. cbn [c_alph] in X1.
  destruct S1 as [[-> _]|(T & S1)]; [contradiction|]. rewrite S1 in *. unfold name_get in H. cbn [name_find] in H.
  destruct (ustr_eq_dec n n); [|contradiction]. rewrite app_nil_r in N.
  assert (W := wt_wf _ _ _ H).
  assert (Some1 : exists u c, wlang T 0 u c).
  { destruct es as [|x es]; [contradiction|]. cbn [map rev] in N. destruct V as [|[u c] V].
    - exfalso. apply named_length in N. rewrite app_length in N. cbn in N. lia.
    - exists u, c. apply (wtree_wlang T _ u c H). now left. }
  destruct Some1 as (u0 & c0 & Lu).
  destruct (minimize_spec T 0 W (lang_label T u0 (ex_intro _ c0 Lu))) as (m & Em & Mm). cbn [minimize_all]. rewrite Em. cbn [obind].
  exists (c_alph c1), m. split; [reflexivity|]. split; [exact Ha1|]. split; [exact X1|]. split.
  { destruct Mm as [(j1 & t1 & Q2 & t2 & j3 & t3 & Q4 & _ & _ & _ & _ & _ & _ & S4 & _)]. exact (DeterminizeProofs.sa_wf _ _ _ _ S4). }
  intros u c. rewrite (minimized_wlang 0 T m u c W Mm) by (right; intros p f Hf; exact (wt_zero _ _ _ H p f Hf)).
  rewrite (wtree_wlang T V u c H), (named_in _ _ _ _ _ Ha1 N). split.
  - intros (w & Hin & R). apply in_rev in Hin. apply in_map_iff in Hin as (x & E1 & Hx1). exists x. split; [exact Hx1|].
    split; [congruence|]. assert (w = literal_word (lr s) x) as -> by congruence. exact R.
  - intros (x & Hx1 & <- & R). exists (literal_word (lr s) x). split; [|exact R]. apply -> in_rev. apply in_map_iff. exists x. auto.
Qed.
