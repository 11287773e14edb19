(** Proofs about threads. *)
From Verif Require Import Base CompressionModel SerialiserModel SortedVectorModel
  AlphabetModel TransducerModel ComposeModel ThreadModel.

(** * Every execution ends *)
Section Pools.
  Context {M A : Type}.
  Definition any_step (ps' ps : list (prog M A)) : Prop :=
    exists ps1 w k ps2 m, ps = ps1 ++ Step w k :: ps2 /\ ps' = ps1 ++ k m :: ps2.
  Lemma any_step_cons : forall p ps x, any_step x (p :: ps) ->
    (exists w k m, p = Step w k /\ x = k m :: ps) \/ (exists ps', any_step ps' ps /\ x = p :: ps').
  Proof.
    intros p ps x (ps1 & w & k & ps2 & m & E & ->). destruct ps1 as [|q ps1]; cbn in E.
    - injection E as -> ->. left. exists w, k, m. auto.
    - injection E as <- ->. right. exists (ps1 ++ k m :: ps2). split; [|reflexivity]. exists ps1, w, k, ps2, m. auto.
  Qed.
  Lemma pool_ends : forall ps, Acc any_step ps.
  Proof.
    induction ps as [|p ps IH].
    - constructor. intros x (ps1 & w & k & ps2 & m & E & _). destruct ps1; discriminate.
    - revert ps IH. induction p as [r|w k IHk]; intros ps H; induction H as [ps H IHps]; constructor; intros x Hx.
      + apply any_step_cons in Hx as [(w & k & m & E & _)|(ps' & Hs & ->)]; [discriminate|]. auto.
      + apply any_step_cons in Hx as [(w' & k' & m & E & ->)|(ps' & Hs & ->)]; [|auto].
        injection E as <- <-. apply IHk. constructor. exact H.
  Qed.
  Lemma steps_end : forall c : list (prog M A) * M, Acc (fun c' c => pool_step c c') c.
  Proof.
    intros [ps m]. revert m. induction (pool_ends ps) as [ps _ IH]. intros m. constructor. intros [ps' m'] H.
    inversion H; subst. apply IH. exists ps1, w, k, ps2, m. auto.
  Qed.
  (** A pool has finished, has stopped or can go on. *)
  Lemma pool_cases : forall ps : list (prog M A),
    (exists l, ps = map ret l) \/ (exists ps1 e ps2, ps = ps1 ++ Done e :: ps2 /\ forall a, e <> Ok a)
    \/ exists ps1 w k ps2, ps = ps1 ++ Step w k :: ps2.
  Proof.
    induction ps as [|p ps IH]; [left; now exists []|]. destruct p as [r|w k].
    - assert (K : (exists a, r = Ok a) \/ forall a, r <> Ok a) by (destruct r; [left; eauto|right; discriminate..]).
      destruct K as [[a ->]|K]; [|right; left; exists [], r, ps; auto].
      destruct IH as [[l ->]|[(ps1 & e & ps2 & -> & N)|(ps1 & w & k & ps2 & ->)]].
      + left. now exists (a :: l).
      + right. left. exists (Done (Ok a) :: ps1), e, ps2. auto.
      + right. right. now exists (Done (Ok a) :: ps1), w, k, ps2.
    - right. right. now exists [], w, k, ps.
  Qed.
  Lemma exec_exists : forall ps (m : M), exists r, @exec M A ps m r.
  Proof.
    intros ps m. revert m. induction (pool_ends ps) as [ps _ IH]. intros m.
    destruct (pool_cases ps) as [[l ->]|[(ps1 & e & ps2 & -> & N)|(ps1 & w & k & ps2 & ->)]].
    - eexists. apply ex_end.
    - eexists. now apply ex_stop.
    - destruct (IH (ps1 ++ k m :: ps2)) with (m := w m) as [r H]; [exists ps1, w, k, ps2, m; auto|]. exists r. now apply ex_step.
  Qed.

  Lemma fail_fail : forall {B C} (r : outcome A), (forall a, r <> Ok a) -> @fail B C (fail r) = fail r.
  Proof. intros B C [] H; auto; exfalso; now apply (H a). Qed.
  Lemma run_bind : forall {B} (p : prog M A) (f : A -> prog M B) m,
    run (pbind p f) m = let! (a, m') := run p m in run (f a) m'.
  Proof.
    induction p as [r|w k IH]; intros f m; cbn [pbind run]; [|apply IH].
    destruct r; reflexivity.
  Qed.
  (** The only thread. *)
  Lemma exec_one : forall (p : prog M A) m r, exec [p] m r <-> r = let! (a, m') := run p m in Ok ([a], m').
  Proof.
    induction p as [r0|w k IH]; intros m r; split; intros H.
    - remember [Done r0] as ps. destruct H as [l m|ps1 e ps2 m N|ps1 w k ps2 m r H].
      + destruct l as [|a [|b l]]; try discriminate. injection Heqps as <-. reflexivity.
      + destruct ps1 as [|q [|q' ps1]]; try discriminate. injection Heqps as <- ->. destruct e; try reflexivity. now destruct (N a).
      + destruct ps1 as [|q [|q' ps1]]; discriminate.
    - subst r. cbn [run]. destruct r0 as [a| | | |]; cbn [obind].
      + apply (ex_end [a]).
      + apply (ex_stop [] Exit []). discriminate.
      + apply (ex_stop [] Throw []). discriminate.
      + apply (ex_stop [] UB []). discriminate.
      + apply (ex_stop [] NoFuel []). discriminate.
    - remember [Step w k] as ps. destruct H as [l m|ps1 e ps2 m N|ps1 w' k' ps2 m r H].
      + destruct l; discriminate.
      + destruct ps1 as [|q [|q' ps1]]; discriminate.
      + destruct ps1 as [|q [|q' ps1]]; try discriminate. injection Heqps as -> -> ->. cbn [run]. now apply IH.
    - apply (ex_step [] w k []). apply IH. exact H.
  Qed.
End Pools.

(** * Threads that leave the memory as it is *)
Section Still.
  Context {M A : Type} (m : M).
  (** Alone, from the memory [m], the thread changes nothing and has the result [a]. *)
  Inductive still : prog M A -> A -> Prop :=
  | st_done a : still (ret a) a
  | st_step w k a : w m = m -> still (k m) a -> still (Step w k) a.
  Lemma still_exec : forall ps m' r, exec ps m' r -> m' = m -> forall l, Forall2 still ps l -> r = Ok (l, m).
  Proof.
    intros ps m' r H. induction H as [l' m'|ps1 e ps2 m' N|ps1 w k ps2 m' r H IH]; intros -> l F.
    - f_equal. f_equal. clear - F. revert l F. induction l' as [|a l' IH]; intros l F; inversion F as [|? ? ? ? F1 F2]; subst; auto.
      inversion F1; subst. f_equal. auto.
    - exfalso. apply Forall2_app_inv_l in F as (l1 & l2 & _ & F & _). inversion F as [|? ? ? ? F1 F2]; subst. inversion F1; subst. eapply N. reflexivity.
    - apply Forall2_app_inv_l in F as (l1 & l2 & F1 & F & ->). inversion F as [|? a ? l2' F2 F3]; subst. inversion F2 as [|? ? ? Hw Hk]; subst.
      apply IH; auto. apply Forall2_app; auto.
  Qed.
End Still.

(** * Threads with memory of their own *)
Section Own.
  Context {A : Type}.
  Notation own := (prog transducer A * transducer)%type.
  Fixpoint pool (i : nat) (l : list own) : list (prog (list transducer) A) :=
    match l with [] => [] | (p, _) :: r => on_section i p :: pool (S i) r end.
  Definition alone (x : own) : outcome (A * transducer) := run (fst x) (snd x).
  Lemma pool_app : forall l1 l2 i, pool i (l1 ++ l2) = pool i l1 ++ pool (i + length l1) l2.
  Proof.
    induction l1 as [|[p t] l1 IH]; intros l2 i; cbn [app pool length]; [now rewrite Nat.add_0_r|].
    rewrite IH. cbn [app]. do 3 f_equal. lia.
  Qed.
  Lemma pool_split : forall l i ps1 q ps2, pool i l = ps1 ++ q :: ps2 ->
    exists l1 p t l2, l = l1 ++ (p, t) :: l2 /\ ps1 = pool i l1 /\ q = on_section (i + length l1) p /\ ps2 = pool (S (i + length l1)) l2.
  Proof.
    induction l as [|[p t] l IH]; intros i ps1 q ps2 H; cbn [pool] in H; [destruct ps1; discriminate|].
    destruct ps1 as [|q' ps1]; cbn in H.
    - injection H as <- <-. exists [], p, t, l. cbn [app length]. rewrite Nat.add_0_r. auto.
    - injection H as <- H. apply IH in H as (l1 & p' & t' & l2 & -> & -> & -> & ->). exists ((p, t) :: l1), p', t', l2.
      cbn [app pool length]. rewrite <- plus_n_Sm. auto.
  Qed.
  Lemma nth_snd : forall (l1 : list own) x l2, nth_error (map snd (l1 ++ x :: l2)) (length l1) = Some (snd x).
  Proof. intros l1 x l2. rewrite map_app, nth_error_app2; rewrite map_length; [|lia]. rewrite Nat.sub_diag. reflexivity. Qed.
  Lemma set_snd : forall (l1 : list own) x l2 t p, list_set (length l1) t (map snd (l1 ++ x :: l2)) = map snd (l1 ++ (p, t) :: l2).
  Proof. induction l1 as [|y l1 IH]; intros x l2 t p; cbn; [reflexivity|]. f_equal. apply IH. Qed.
  Definition outcomes_of (l : list own) (r : outcome (list A * list transducer)) : Prop :=
    (exists as_ ts, r = Ok (as_, ts) /\ Forall2 (fun x y => alone x = Ok y) l (combine as_ ts) /\ length as_ = length l /\ length ts = length l)
    \/ exists x, In x l /\ (forall y, alone x <> Ok y) /\ r = fail (alone x).
  Lemma own_exec : forall ps m r, exec ps m r -> forall l, ps = pool 0 l -> m = map snd l -> outcomes_of l r.
  Proof.
    intros ps m r H. induction H as [as_ m|ps1 e ps2 m N|ps1 w k ps2 m r H IH]; intros l Ep Em.
    - left. exists as_, m. subst m. assert (K : Forall2 (fun x y => alone x = Ok y) l (combine as_ (map snd l)) /\ length as_ = length l).
      { clear - Ep. revert Ep. generalize 0%nat. revert as_. induction l as [|[p t] l IH]; intros as_ i E; destruct as_ as [|a as_]; try discriminate; [split; [constructor|auto]|].
        cbn [map pool] in E. injection E as E1 E2. destruct (IH as_ (S i) E2) as [K1 K2]. split; [|cbn; lia]. cbn [map combine]. constructor; auto.
        destruct p as [o|w k]; [|discriminate]. cbn in E1. injection E1 as <-. reflexivity. }
      split; auto. split; [apply K|]. split; [apply K|apply map_length].
    - right. symmetry in Ep. apply pool_split in Ep as (l1 & p & t & l2 & -> & _ & E & _). destruct p as [o|w k]; [|discriminate]. cbn in E. injection E as <-.
      exists (Done e, t). split; [apply in_or_app; right; now left|]. unfold alone. cbn [fst snd run]. destruct e as [a| | | |]; try (split; [discriminate|reflexivity]).
      now destruct (N a).
    - symmetry in Ep. apply pool_split in Ep as (l1 & p & t & l2 & -> & -> & E & ->). cbn [Nat.add] in *. destruct p as [o|w' k']; [discriminate|].
      cbn [on_section] in E. injection E as -> ->. subst m. rewrite nth_snd in IH. cbn [snd] in IH.
      destruct (IH (l1 ++ (k' t, w' t) :: l2)) as [(as_ & ts & -> & F & L1 & L2)|(x & Hx & Nx & ->)].
      + rewrite pool_app. reflexivity.
      + apply set_snd.
      + left. exists as_, ts. split; auto. rewrite !app_length in *. cbn [length] in *. split; [|auto].
        apply Forall2_app_inv_l in F as (y1 & y2 & F1 & F2 & ->). apply Forall2_app; auto. inversion F2 as [|? ? ? ? F3 F4]; subst. constructor; auto.
      + right. apply in_app_or in Hx as [Hx|[<-|Hx]].
        * exists x. split; [apply in_or_app; auto|auto].
        * exists (Step w' k', t). split; [apply in_or_app; right; now left|auto].
        * exists x. split; [apply in_or_app; right; now right|auto].
  Qed.
End Own.
Lemma run_apply : forall op t, run (apply_op op) t = let! t' := op t in Ok (tt, t').
Proof. intros op t. unfold apply_op. cbn [run]. destruct (op t); reflexivity. Qed.
Lemma run_minimize : forall eps t, run (minimize_p eps) t = let! t' := minimize eps t in Ok (tt, t').
Proof.
  intros eps t. unfold minimize_p, minimize. cbn [run]. destruct (finals t) as [|f fs]; [reflexivity|].
  rewrite run_bind, run_apply. destruct (reverse eps t) as [t1| | | |]; try reflexivity. cbn [obind].
  rewrite run_bind, run_apply. destruct (determinize eps t1) as [t2| | | |]; try reflexivity. cbn [obind].
  rewrite run_bind, run_apply. destruct (reverse eps t2) as [t3| | | |]; try reflexivity. cbn [obind].
  rewrite run_apply. reflexivity.
Qed.
Lemma pool_minimisations : forall eps ts, minimisations eps ts = pool 0 (map (fun t => (minimize_p eps, t)) ts).
Proof.
  intros eps ts. unfold minimisations. generalize 0%nat. induction ts as [|t ts IH]; intros i; cbn [length seq map pool]; [reflexivity|]. f_equal. apply IH.
Qed.
Lemma minimize_all_ok : forall eps ts ts', minimize_all eps ts = Ok ts' <-> Forall2 (fun t t' => minimize eps t = Ok t') ts ts'.
Proof.
  intros eps. induction ts as [|t ts IH]; intros ts'; cbn [minimize_all]; split; intros H.
  - injection H as <-. constructor.
  - inversion H; auto.
  - destruct (minimize eps t) as [t1| | | |] eqn:E; try discriminate. cbn [obind] in H. destruct (minimize_all eps ts) as [ts1| | | |] eqn:E1; try discriminate.
    cbn [obind] in H. injection H as <-. constructor; auto. now apply IH.
  - inversion H as [|? t' ? ts1 H1 H2]; subst. rewrite H1. cbn [obind]. apply IH in H2. rewrite H2. reflexivity.
Qed.

(** * Composition by one thread *)
Definition same_but_alpha (st st' : cst) : Prop :=
  c_gf st = c_gf st' /\ c_map st = c_map st' /\ c_todo st = c_todo st' /\ c_seen st = c_seen st'.
Definition forget (x : outcome cst) : outcome (cst * alphabet) :=
  let! st := x in Ok (mkC (c_gf st) (c_map st) (c_todo st) (c_seen st) new_alphabet, c_alpha st).
Definition hide (st : cst) : cst := mkC (c_gf st) (c_map st) (c_todo st) (c_seen st) new_alphabet.
Lemma map_find_set : forall {K} (dec : forall a b : K, {a = b} + {a <> b}) k v m, map_find dec k (map_set dec k v m) = Some v.
Proof.
  intros K dec k v. induction m as [|[k' v'] m IH]; cbn.
  - destruct (dec k k); congruence.
  - destruct (dec k k') as [->|N]; cbn; [destruct (dec k' k'); congruence|]. destruct (dec k k'); [contradiction|auto].
Qed.
Lemma run_pair : forall c a, run (pair_code_p c) a = Ok (pair_code c a).
Proof.
  intros c a. unfold pair_code_p, pair_code. cbn [run]. destruct (map_find pair_eq_dec c (spair a)) as [v|] eqn:E; cbn [run obind ret].
  - rewrite E. reflexivity.
  - cbn [spair slexic slexicinv spairinv]. rewrite map_find_set. reflexivity.
Qed.
Lemma run_label : forall g_a fi gr inv f_a, run (composeLabel_p g_a fi gr inv) f_a = composeLabel f_a g_a fi gr inv.
Proof.
  intros g_a fi gr inv f_a. unfold composeLabel_p, composeLabel. rewrite run_bind. destruct (0 <=? gr).
  - cbn [run ret obind]. apply run_pair.
  - rewrite run_bind. unfold pure, read_a. cbn [run]. destruct (getSymbol gr g_a) as [s| | | |]; try reflexivity. cbn [obind run]. apply run_pair.
Qed.
Lemma visit_alpha : forall gf_src next label w st, forget (c_visit gf_src next label w st) = let! st' := c_visit gf_src next label w (hide st) in Ok (st', c_alpha st).
Proof.
  intros gf_src next label w st. unfold forget, hide, c_visit. cbn [c_gf c_map c_todo c_seen c_alpha].
  destruct (cfind next (c_map st)) as [s|].
  - destruct (linkStates gf_src s label w (c_gf st)); reflexivity.
  - destruct (newState (c_gf st)) as [s gf]. destruct (linkStates gf_src s label w gf); reflexivity.
Qed.
Lemma run_visit_new : forall g_a inv gf_src next fi gr w st,
  run (c_visit_new_p g_a inv gf_src next fi gr w (hide st)) (c_alpha st) = forget (c_visit_new g_a inv gf_src next fi gr w st).
Proof.
  intros. unfold c_visit_new_p, c_visit_new. rewrite run_bind, run_label. destruct (composeLabel (c_alpha st) g_a fi gr inv) as [[l a]| | | |]; try reflexivity.
  cbn [obind run pure]. rewrite visit_alpha. unfold hide. cbn [c_gf c_map c_todo c_seen c_alpha]. reflexivity.
Qed.
Lemma forget_bind : forall (x : outcome cst) (k : cst -> outcome cst),
  forget (let! st := x in k st) = let! (st, a) := forget x in forget (k (mkC (c_gf st) (c_map st) (c_todo st) (c_seen st) a)).
Proof. intros x k. destruct x as [[gf m td sn al]| | | |]; reflexivity. Qed.
Lemma run_bind_cst : forall {B} (p : prog alphabet cst) (f : cst -> prog alphabet B) al (x : outcome cst),
  run p al = forget x -> run (pbind p f) al = let! st := x in run (f (hide st)) (c_alpha st).
Proof. intros B p f al x E. rewrite run_bind, E. destruct x; reflexivity. Qed.
Section Compose.
  Context (f g : transducer) (g_a : alphabet) (inv anywhere : bool).
  Lemma forget_ok : forall st, run (ret (hide st)) (c_alpha st) = forget (Ok st).
  Proof. reflexivity. Qed.
  Lemma run_then : forall (p : prog alphabet cst) (fp : cst -> prog alphabet cst) (x : outcome cst) (k : cst -> outcome cst) al,
    run p al = forget x -> (forall st, run (fp (hide st)) (c_alpha st) = forget (k st)) ->
    run (pbind p fp) al = forget (let! st := x in k st).
  Proof. intros p fp x k al E H. rewrite (run_bind_cst _ _ _ _ E). destruct x; try reflexivity. apply H. Qed.
  Lemma run_geps : forall f_src gf_src arcs st, run (c_geps_p g_a inv f_src gf_src arcs (hide st)) (c_alpha st) = forget (c_geps g_a inv f_src gf_src arcs st).
  Proof.
    intros f_src gf_src. induction arcs as [|a r IH]; intros st; cbn [c_geps_p c_geps]; [reflexivity|].
    unfold pure at 1. destruct (decode (a_tag a) g_a) as [[gl gr]| | | |]; try reflexivity. cbn [pbind obind].
    apply run_then; [|apply IH]. destruct (gl =? 0); [apply run_visit_new|reflexivity].
  Qed.
  Lemma run_match : forall gf_src f_trg fi fo w arcs st,
    run (c_match_p g_a inv gf_src f_trg fi fo w arcs (hide st)) (c_alpha st) = forget (c_match g_a inv gf_src f_trg fi fo w arcs st).
  Proof.
    intros gf_src f_trg fi fo w. induction arcs as [|a r IH]; intros st; cbn [c_match_p c_match]; [reflexivity|].
    unfold pure at 1. destruct (decode (a_tag a) g_a) as [[gl gr]| | | |]; try reflexivity. cbn [pbind obind].
    destruct (gl =? 0).
    - cbn [pbind ret obind]. apply IH.
    - unfold read_a. cbn [pbind]. cbn [run]. destruct (sameSymbol (c_alpha st) fo g_a gl) as [same| | | |]; try reflexivity. cbn [pbind obind].
      apply run_then; [|apply IH]. destruct same; [apply run_visit_new|reflexivity].
  Qed.
  Lemma run_farcs : forall g_src gf_src arcs st,
    run (c_farcs_p g g_a inv anywhere g_src gf_src arcs (hide st)) (c_alpha st) = forget (c_farcs g g_a inv anywhere g_src gf_src arcs st).
  Proof.
    intros g_src gf_src. induction arcs as [|a r IH]; intros st; cbn [c_farcs_p c_farcs]; [reflexivity|].
    unfold read_a. cbn [pbind run]. destruct (decode (a_tag a) (c_alpha st)) as [pr| | | |]; try reflexivity. cbn [pbind obind].
    destruct (if inv then (snd pr, fst pr) else pr) as [fi fo].
    apply run_then; [apply run_match|]. intros st1. apply run_then.
    { destruct (anywhere && (g_src =? initial g)%nat); [|reflexivity]. rewrite visit_alpha. reflexivity. }
    intros st2. apply run_then; [|apply IH]. destruct (fo =? 0); [|reflexivity]. rewrite visit_alpha. reflexivity.
  Qed.
  Lemma run_loop : forall fuel st, run (c_loop_p f g g_a inv anywhere fuel (hide st)) (c_alpha st) = forget (c_loop f g g_a inv anywhere fuel st).
  Proof.
    induction fuel as [|fuel IH]; intros st; cbn [c_loop_p c_loop]; change (c_todo (hide st)) with (c_todo st); destruct (c_todo st) as [|cur todo] eqn:E; try reflexivity.
    cbn [hide c_gf c_map c_todo c_seen c_alpha]. destruct (cfind cur (c_map st)) as [gs|]; [|reflexivity].
    set (st0 := mkC (c_gf st) (c_map st) todo (cur :: c_seen st) (c_alpha st)).
    change (mkC (c_gf st) (c_map st) todo (cur :: c_seen st) new_alphabet) with (hide st0). change (c_alpha st) with (c_alpha st0).
    apply run_then; [apply run_geps|]. intros st1. apply run_then; [apply run_farcs|]. intros st2. apply IH.
  Qed.
End Compose.
Lemma run_compose : forall fuel g f_a g_a inv anywhere eps f,
  run (compose_p fuel g g_a inv anywhere eps f) f_a = compose fuel g f_a g_a inv anywhere eps f.
Proof.
  intros. unfold compose_p, compose. unfold pure at 1. destruct (joinFinals eps f) as [j| | | |]; try reflexivity. cbn [pbind obind].
  set (st := mkC new_transducer [((initial j, initial g), initial new_transducer)] [(initial j, initial g)] [] f_a).
  change (mkC new_transducer _ _ _ new_alphabet) with (hide st). change f_a with (c_alpha st) at 1.
  rewrite (run_bind_cst _ _ _ _ (run_loop j g g_a inv anywhere fuel st)). destruct (c_loop j g g_a inv anywhere fuel st); reflexivity.
Qed.

(** * Threads that let the alphabet grow *)
Definition msize (a : alphabet) : nat := length (spairinv a).
Definition mono {A} (p : prog alphabet A) : Prop := forall m a m', run p m = Ok (a, m') ->
  (msize m <= msize m')%nat /\ (msize m' = msize m -> m' = m /\ still m p a).
Lemma mono_done : forall {A} (r : outcome A), mono (Done r).
Proof.
  intros A r m a m' H. cbn [run] in H. destruct r as [b| | | |]; try discriminate. cbn in H. injection H as <- <-. split; [lia|]. intros _. split; auto. constructor.
Qed.
Lemma mono_read : forall {A} (f : alphabet -> outcome A), mono (read_a f).
Proof.
  intros A f m a m' H. unfold read_a in *. cbn [run] in H. destruct (f m) as [b| | | |] eqn:E; try discriminate. cbn in H. injection H as <- <-. split; [lia|]. intros _. split; auto.
  constructor; auto. rewrite E. constructor.
Qed.
Lemma still_bind : forall {A B} m (p : prog alphabet A) (f : A -> prog alphabet B) a b, still m p a -> still m (f a) b -> still m (pbind p f) b.
Proof. intros A B m p f a b H. induction H as [a|w k a Hw H IH]; intros Hf; cbn [pbind ret]; [exact Hf|]. constructor; auto. Qed.
Lemma mono_bind : forall {A B} (p : prog alphabet A) (f : A -> prog alphabet B), mono p -> (forall a, mono (f a)) -> mono (pbind p f).
Proof.
  intros A B p f Hp Hf m b m' H. rewrite run_bind in H. destruct (run p m) as [[a m1]| | | |] eqn:E; try discriminate. cbn [obind] in H.
  destruct (Hp _ _ _ E) as [L1 S1]. destruct (Hf _ _ _ _ H) as [L2 S2]. split; [lia|]. intros Heq.
  destruct S1 as [-> S1]; [lia|]. destruct S2 as [-> S2]; [lia|]. split; auto. eapply still_bind; eauto.
Qed.
Lemma mono_pair : forall c, mono (pair_code_p c).
Proof.
  intros c m v m' H. rewrite run_pair in H. assert (K : pair_code c m = (v, m')) by congruence. clear H. rename K into H. unfold pair_code in H. destruct (map_find pair_eq_dec c (spair m)) as [x|] eqn:E.
  - rewrite E in H. assert (v = x /\ m' = m) as [-> ->] by (split; congruence). split; [lia|]. intros _. split; auto. unfold pair_code_p. constructor; [reflexivity|]. rewrite E.
    constructor; [now rewrite E|]. rewrite E. constructor.
  - apply (f_equal snd) in H. cbn [snd] in H. subst m'. unfold msize. cbn [spairinv]. rewrite app_length. cbn. split; [lia|]. intros K. lia.
Qed.
Lemma mono_if : forall {A} (b : bool) (p q : prog alphabet A), mono p -> mono q -> mono (if b then p else q).
Proof. intros A [] p q; auto. Qed.
Lemma mono_visit : forall g_a inv gf_src next fi gr w st, mono (c_visit_new_p g_a inv gf_src next fi gr w st).
Proof.
  intros. unfold c_visit_new_p, composeLabel_p. apply mono_bind; [|intros; apply mono_done]. apply mono_bind; [|intros; apply mono_pair].
  apply mono_if; [apply mono_done|]. apply mono_bind; [apply mono_done|]. intros; apply mono_read.
Qed.
Lemma mono_geps : forall g_a inv f_src gf_src arcs st, mono (c_geps_p g_a inv f_src gf_src arcs st).
Proof.
  intros g_a inv f_src gf_src. induction arcs as [|a r IH]; intros st; cbn [c_geps_p]; [apply mono_done|].
  apply mono_bind; [apply mono_done|]. intros [gl gr]. apply mono_bind; [|intros; apply IH]. apply mono_if; [apply mono_visit|apply mono_done].
Qed.
Lemma mono_match : forall g_a inv gf_src f_trg fi fo w arcs st, mono (c_match_p g_a inv gf_src f_trg fi fo w arcs st).
Proof.
  intros g_a inv gf_src f_trg fi fo w. induction arcs as [|a r IH]; intros st; cbn [c_match_p]; [apply mono_done|].
  apply mono_bind; [apply mono_done|]. intros [gl gr]. apply mono_bind; [apply mono_if; [apply mono_done|apply mono_read]|].
  intros same. apply mono_bind; [|intros; apply IH]. apply mono_if; [apply mono_visit|apply mono_done].
Qed.
Lemma mono_farcs : forall g g_a inv anywhere g_src gf_src arcs st, mono (c_farcs_p g g_a inv anywhere g_src gf_src arcs st).
Proof.
  intros g g_a inv anywhere g_src gf_src. induction arcs as [|a r IH]; intros st; cbn [c_farcs_p]; [apply mono_done|].
  apply mono_bind; [apply mono_read|]. intros pr. destruct (if inv then (snd pr, fst pr) else pr) as [fi fo].
  apply mono_bind; [apply mono_match|]. intros st1. apply mono_bind; [apply mono_if; apply mono_done|]. intros st2.
  apply mono_bind; [apply mono_if; apply mono_done|]. intros; apply IH.
Qed.
Lemma mono_loop : forall f g g_a inv anywhere fuel st, mono (c_loop_p f g g_a inv anywhere fuel st).
Proof.
  intros f g g_a inv anywhere. induction fuel as [|fuel IH]; intros st; cbn [c_loop_p]; destruct (c_todo st) as [|cur todo]; try apply mono_done.
  cbn [c_map]. destruct (cfind cur (c_map st)); [|apply mono_done]. apply mono_bind; [apply mono_geps|]. intros. apply mono_bind; [apply mono_farcs|]. intros; apply IH.
Qed.
Lemma mono_composition : forall fuel g_a inv anywhere g f, mono (composition fuel g_a inv anywhere g f).
Proof.
  intros. unfold composition, compose_p. apply mono_bind.
  - apply mono_bind; [apply mono_done|]. intros j. apply mono_bind; [apply mono_loop|]. intros; apply mono_done.
  - intros gf. destruct (finals gf); apply mono_done.
Qed.
Lemma run_composition : forall fuel g_a inv anywhere g f f_a, run (composition fuel g_a inv anywhere g f) f_a =
  let! (gf, f_a) := compose fuel g f_a g_a inv anywhere 0 f in
  match finals gf with [] => Ok (gf, f_a) | _ => let! gf := minimize 0 gf in Ok (gf, f_a) end.
Proof.
  intros. unfold composition. rewrite run_bind, run_compose. destruct (compose fuel g f_a g_a inv anywhere 0 f) as [[gf a]| | | |]; try reflexivity.
  cbn [obind]. destruct (finals gf); reflexivity.
Qed.
