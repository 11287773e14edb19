(** C34: worker threads. *)
From Coq Require String Ascii.
From Verif Require Import Base CompressionModel SerialiserModel SortedVectorModel AlphabetModel AlphabetProofs AlphabetProps
  TransducerModel TransducerSpec TransducerProofs ReverseProofs MinimizeProofs RelabelModel RelabelSpec RelabelProofs ComposeModel ComposeSpec ComposeProofs
  AutomataProps ComposeProps ThreadModel ThreadProofs.

(** * Minimising *)
Lemma minimize_cases : forall eps t, wf t -> (exists m, minimize eps t = Ok m) \/ minimize eps t = Exit.
Proof.
  intros eps t W. destruct (finals t) as [|f fs] eqn:Ef; [left; exists t; now apply C21_no_finals|].
  assert (N : finals t <> []) by (rewrite Ef; discriminate). unfold minimize. rewrite Ef.
  destruct (C20_reverse t eps W N) as (r & lost & Er & Wr & _). rewrite Er. cbn [obind].
  destruct (DeterminizeProofs.determinize_subset r eps Wr) as (Q & d & Ed & SA). rewrite Ed. cbn [obind].
  assert (Wd := DeterminizeProofs.sa_wf _ _ _ _ SA). destruct (finals d) as [|f' fs'] eqn:Ed'; [right; rewrite reverse_exits; auto|].
  destruct (C20_reverse d eps Wd) as (r2 & lost2 & Er2 & Wr2 & _); [rewrite Ed'; discriminate|]. rewrite Er2. cbn [obind].
  destruct (C16_determinize r2 eps Wr2) as (d2 & -> & _). left. eauto.
Qed.

(** Whatever the order in which the threads make their steps: minimising ends, and gives the
    same sections as minimising them one after the other (or exits if that exits). *)
Theorem C34_minimise : forall eps ts, Forall wf ts ->
  (exists r, exec (minimisations eps ts) ts r)
  /\ Acc (fun c' c => pool_step c c') (minimisations eps ts, ts)
  /\ forall r, exec (minimisations eps ts) ts r ->
       match minimize_all eps ts with
       | Ok ts' => r = Ok (map (fun _ => tt) ts, ts')
       | e => r = Exit /\ e = Exit
       end.
Proof.
  intros eps ts W. split; [apply exec_exists|]. split; [apply steps_end|]. intros r H.
  assert (Seq : (exists ts', minimize_all eps ts = Ok ts') \/ (minimize_all eps ts = Exit /\ exists t, In t ts /\ minimize eps t = Exit)).
  { clear H. induction W as [|t ts Wt W IH]; [left; now exists []|]. cbn [minimize_all]. destruct (minimize_cases eps t Wt) as [[m E]|E]; rewrite E; cbn [obind].
    - destruct IH as [[ts' ->]|[-> (t' & Ht & Et)]]; [left; eexists; reflexivity|]. right. split; auto. exists t'. split; [now right|auto].
    - right. split; auto. exists t. split; [now left|auto]. }
  rewrite pool_minimisations in H. apply own_exec with (l := map (fun t => (minimize_p eps, t)) ts) in H; [|reflexivity|rewrite map_map; now rewrite map_id].
  destruct H as [(as_ & ts' & -> & F & L1 & L2)|(x & Hx & Nx & ->)].
  - rewrite map_length in L1, L2. assert (F' : Forall2 (fun t t' => minimize eps t = Ok t') ts ts' /\ as_ = map (fun _ => tt) ts).
    { clear - F L1 L2. revert as_ ts' F L1 L2. induction ts as [|t ts IH]; intros [|a as_] [|t' ts'] F L1 L2; try discriminate; [split; [constructor|auto]|].
      cbn [map combine] in F. inversion F as [|? ? ? ? F1 F2]; subst. destruct (IH as_ ts' F2) as [I1 ->]; [cbn in L1; lia|cbn in L2; lia|].
      unfold alone in F1. cbn [fst snd] in F1. rewrite run_minimize in F1. destruct (minimize eps t) as [m| | | |] eqn:E; try discriminate. cbn in F1.
      injection F1 as <- <-. split; [constructor; auto|reflexivity]. }
    destruct F' as [F' ->]. apply minimize_all_ok in F'. now rewrite F'.
  - apply in_map_iff in Hx as (t & <- & Ht). unfold alone in *. cbn [fst snd] in *. rewrite run_minimize in *.
    rewrite Forall_forall in W. destruct (minimize_cases eps t (W t Ht)) as [[m E]|E]; rewrite E in *; cbn [obind] in *; [now destruct (Nx (tt, m))|].
    destruct Seq as [[ts' E']|[E' _]]; [|rewrite E'; auto]. exfalso. apply minimize_all_ok in E'. clear - E E' Ht.
    induction E' as [|t0 t1 ts ts' H1 H2 IH]; [destruct Ht|]. destruct Ht as [->|Ht]; [congruence|auto].
Qed.

(** * Composing *)
Lemma loop_more : forall f g g_a inv anywhere n k st r, c_loop f g g_a inv anywhere n st = Ok r -> c_loop f g g_a inv anywhere (n + k) st = Ok r.
Proof.
  intros f g g_a inv anywhere. induction n as [|n IH]; intros k st r H; cbn [c_loop Nat.add] in *.
  - destruct (c_todo st) as [|c td] eqn:E; [|discriminate]. destruct k; cbn [c_loop]; rewrite E; exact H.
  - destruct (c_todo st) as [|c td]; [exact H|]. cbn [c_map] in *. destruct (cfind c (c_map st)) as [gs|]; [|discriminate].
    destruct (c_geps _ _ _ _ _ _) as [st1| | | |]; try discriminate. cbn [obind] in *.
    destruct (c_farcs _ _ _ _ _ _ _ _) as [st2| | | |]; try discriminate. cbn [obind] in *. auto.
Qed.
Lemma compose_more : forall n k g f_a g_a inv anywhere f r, compose n g f_a g_a inv anywhere 0 f = Ok r -> compose (n + k) g f_a g_a inv anywhere 0 f = Ok r.
Proof.
  intros n k g f_a g_a inv anywhere f r H. unfold compose in *. destruct (joinFinals 0 f) as [j| | | |]; try discriminate. cbn [obind] in *.
  destruct (c_loop j g g_a inv anywhere n _) as [st| | | |] eqn:E; try discriminate. erewrite loop_more; eauto.
Qed.
Lemma minimize_finals : forall t m, wf t -> minimize 0 t = Ok m -> finals t <> [] -> finals m <> [].
Proof.
  intros t m W E N K. rewrite C21_empty_language_exits in E; auto; [discriminate|]. intros w Hw.
  destruct (C21_minimize t 0 W (ex_intro _ w Hw)) as (m' & E' & _ & L & _). assert (m' = m) by congruence. subst m'.
  apply L in Hw as (c & l & f & (q & _ & Hf) & _). unfold final_wt in Hf. rewrite K in Hf. destruct Hf.
Qed.
Lemma compose_fine : forall fuel g f_a g_a inv anywhere f gf a', wf f -> wf g -> alph_inv0 f_a -> symbols_in f f_a -> symbols_in g g_a ->
  compose fuel g f_a g_a inv anywhere 0 f = Ok (gf, a') -> wf gf /\ alph_inv0 a' /\ extends f_a a'.
Proof.
  intros fuel g f_a g_a inv anywhere f gf a' W Wg I T Tg E.
  assert (N : finals f <> []) by (intros K; unfold compose, joinFinals in E; rewrite K in E; discriminate).
  destruct (C29_product g f f_a g_a inv anywhere W Wg I T Tg N) as (j & gf' & a'' & M & _ & H & Wgf & Ia & Ex & _).
  specialize (H (fuel + M)%nat ltac:(lia)). rewrite (compose_more fuel M _ _ _ _ _ _ _ E) in H. assert (gf' = gf /\ a'' = a') as [-> ->] by (split; congruence). auto.
Qed.

(** If the threads run one after the other the result is that of the program without
    threads. *)
Theorem C34_compose_serial : forall fuel g_a inv anywhere g fs f_a,
  wf g -> symbols_in g g_a -> Forall (fun s => wf (snd s)) fs ->
  alph_inv0 f_a -> Forall (fun s => symbols_in (snd s) f_a) fs ->
  compose_seq fuel g_a inv anywhere g fs f_a
  = let! (rs, a') := run_all (compositions fuel g_a inv anywhere g fs) f_a in Ok (collect (worked_on fs) rs, a').
Proof.
  intros fuel g_a inv anywhere g fs f_a Wg Tg W. revert f_a. induction W as [|[n f] fs Wf W IH]; intros f_a I T; [reflexivity|].
  inversion T as [|? ? Tf T']; subst. cbn [snd] in *. cbn [compose_seq]. unfold compositions, worked_on. cbn [filter snd].
  destruct (numberOfTransitions f =? 0)%nat; cbn [negb]; [apply IH; auto|]. cbn [map run_all snd]. rewrite run_composition.
  destruct (compose fuel g f_a g_a inv anywhere 0 f) as [[gf a1]| | | |] eqn:E; try reflexivity. cbn [obind].
  destruct (compose_fine _ _ _ _ _ _ _ _ _ Wf Wg I Tf Tg E) as (Wgf & I1 & Ex).
  assert (T1 : Forall (fun s => symbols_in (snd s) a1) fs).
  { rewrite Forall_forall in *. intros s Hs p tag q w Ha. destruct (T' s Hs p tag q w Ha) as (x & Hx). exists x. eapply as_symbols_extends; eauto. }
  destruct (finals gf) as [|f0 fs0] eqn:Ef.
  - cbn [obind]. rewrite IH by auto. unfold compositions, worked_on.
    destruct (run_all _ a1) as [[rs a2]| | | |]; try reflexivity. cbn [obind]. unfold collect. cbn [map combine filter fst snd]. rewrite Ef. reflexivity.
  - destruct (minimize 0 gf) as [m| | | |] eqn:Em; try reflexivity. cbn [obind]. rewrite IH by auto. unfold compositions, worked_on.
    destruct (run_all _ a1) as [[rs a2]| | | |]; try reflexivity. cbn [obind]. unfold collect. cbn [map combine filter fst snd].
    assert (N : finals m <> []) by (eapply minimize_finals; eauto; rewrite Ef; discriminate). destruct (finals m); [congruence|reflexivity].
Qed.

(** If the alphabet has all the pairs that are needed the threads do not disturb each other:
    every execution gives the sections of the program without threads. *)
Theorem C34_compose_known : forall fuel g_a inv anywhere g fs f_a rs,
  wf g -> symbols_in g g_a -> Forall (fun s => wf (snd s)) fs ->
  alph_inv0 f_a -> Forall (fun s => symbols_in (snd s) f_a) fs ->
  compose_seq fuel g_a inv anywhere g fs f_a = Ok (rs, f_a) ->
  (exists r, exec (compositions fuel g_a inv anywhere g fs) f_a r)
  /\ forall r, exec (compositions fuel g_a inv anywhere g fs) f_a r ->
       exists gfs, r = Ok (gfs, f_a) /\ collect (worked_on fs) gfs = rs.
Proof.
  intros fuel g_a inv anywhere g fs f_a rs Wg Tg W I T H. split; [apply exec_exists|]. intros r Hr.
  rewrite C34_compose_serial in H by auto. destruct (run_all _ f_a) as [[gfs a']| | | |] eqn:E; try discriminate. cbn [obind] in H.
  assert (a' = f_a) by congruence. subst a'. exists gfs. split; [|congruence]. apply (still_exec f_a _ _ _ Hr eq_refl). clear - E.
  assert (G : forall (ps : list (prog alphabet transducer)) m gfs m', Forall mono ps -> run_all ps m = Ok (gfs, m') -> (msize m <= msize m')%nat /\ (msize m' = msize m -> m' = m /\ Forall2 (still m) ps gfs)).
  { induction ps as [|p ps IH]; intros m l m' F H; cbn [run_all] in H; inversion F as [|? ? F1 F2]; subst.
    - injection H as <- <-. split; [lia|]. auto.
    - destruct (run p m) as [[a m1]| | | |] eqn:E1; try discriminate. cbn [obind] in H. destruct (run_all ps m1) as [[l' m2]| | | |] eqn:E2; try discriminate.
      cbn [obind] in H. assert (l = a :: l' /\ m' = m2) as [-> ->] by (split; congruence). destruct (F1 _ _ _ E1) as [L1 S1]. destruct (IH _ _ _ F2 E2) as [L2 S2].
      split; [lia|]. intros K. destruct S1 as [-> S1]; [lia|]. destruct S2 as [-> S2]; [lia|]. split; auto. }
  eapply G; [|exact E|reflexivity]. apply Forall_forall. intros p Hp. apply in_map_iff in Hp as (s & <- & _). apply mono_composition.
Qed.

(** * What does not hold *)
(** A schedule: the numbers of the threads that make the steps. *)
Fixpoint follow_schedule {M A} (s : list nat) (ps : list (prog M A)) (m : M) : option (list (prog M A) * M) :=
  match s with
  | [] => Some (ps, m)
  | i :: s =>
      match nth_error ps i with
      | Some (Step w k) => follow_schedule s (firstn i ps ++ k m :: skipn (S i) ps) (w m)
      | _ => None
      end
  end.
Lemma schedule_exec : forall {M A} s (ps : list (prog M A)) m ps' m' r, follow_schedule s ps m = Some (ps', m') -> exec ps' m' r -> exec ps m r.
Proof.
  induction s as [|i s IH]; intros ps m ps' m' r H K; cbn [follow_schedule] in H; [injection H as -> ->; auto|].
  destruct (nth_error ps i) as [[o|w k]|] eqn:E; try discriminate.
  assert (Es : ps = firstn i ps ++ Step w k :: skipn (S i) ps).
  { clear - E. revert i E. induction ps as [|p ps IH]; intros [|i] E; try discriminate; cbn in *; [injection E as ->; reflexivity|]. f_equal. auto. }
  rewrite Es. apply ex_step. eapply IH; eauto.
Qed.
Fixpoint results {M A} (ps : list (prog M A)) : option (list A) :=
  match ps with
  | [] => Some []
  | Done (Ok a) :: ps => match results ps with Some l => Some (a :: l) | None => None end
  | _ => None
  end.
Lemma results_ret : forall {M A} (ps : list (prog M A)) l, results ps = Some l -> ps = map ret l.
Proof.
  induction ps as [|p ps IH]; intros l H; cbn in H; [injection H as <-; reflexivity|].
  destruct p as [[a| | | |]|]; try discriminate. destruct (results ps) as [l'|]; [|discriminate]. injection H as <-. cbn. now rewrite (IH l' eq_refl).
Qed.
Definition after_schedule {M A} (s : list nat) (ps : list (prog M A)) (m : M) : option (list A * M) :=
  match follow_schedule s ps m with
  | Some (ps', m') => match results ps' with Some l => Some (l, m') | None => None end
  | None => None
  end.
Lemma after_schedule_exec : forall {M A} s (ps : list (prog M A)) m l m', after_schedule s ps m = Some (l, m') -> exec ps m (Ok (l, m')).
Proof.
  intros M A s ps m l m' H. unfold after_schedule in H. destruct (follow_schedule s ps m) as [[ps' m1]|] eqn:E; [|discriminate].
  destruct (results ps') as [l'|] eqn:E'; [|discriminate]. assert (l' = l /\ m1 = m') as [-> ->] by (split; congruence).
  eapply schedule_exec; [exact E|]. rewrite (results_ret _ _ E'). constructor.
Qed.
(** Two sections, "a" and "b"; the other dictionary turns a into x and b into y. *)
Definition ab_alphabet : alphabet := snd (pair_code (98, 98) (snd (pair_code (97, 97) new_alphabet))).
Definition xy_alphabet : alphabet := snd (pair_code (98, 121) (snd (pair_code (97, 120) new_alphabet))).
Definition one_arc (tag : Z) : transducer := mkT 0 [(1%nat, 0)] [[(tag, (1%nat, 0))]; []].
Definition xy_trans : transducer := mkT 0 [(1%nat, 0)] [[(1, (1%nat, 0)); (2, (1%nat, 0))]; []].
Definition ab_sections : list (ustr * transducer) := [([65], one_arc 1); ([66], one_arc 2)].
Definition ab_threads := compositions 10 xy_alphabet false false xy_trans ab_sections.
Definition bad_schedule : list nat := repeat 0%nat 4 ++ repeat 1%nat 5 ++ repeat 0%nat 4 ++ repeat 1%nat 3.
(** Both threads take the same number for their pair: the second section then turns a into x,
    too. *)
Theorem C34_compose_refuted :
  compose_seq 10 xy_alphabet false false xy_trans ab_sections ab_alphabet
  = Ok ([([65], one_arc 3); ([66], one_arc 4)], mkAlphabet [] [] [((0, 0), 0); ((97, 97), 1); ((98, 98), 2); ((97, 120), 3); ((98, 121), 4)]
                                                             [(0, 0); (97, 97); (98, 98); (97, 120); (98, 121)])
  /\ exists a', exec ab_threads ab_alphabet (Ok ([one_arc 3; one_arc 3], a'))
       /\ srel (one_arc 3) a' [SChar 97] [SChar 120] 0 /\ forall z c, ~ srel (one_arc 3) a' [SChar 98] z c.
Proof.
  split; [vm_compute; reflexivity|]. eexists. split; [|split].
  - apply (after_schedule_exec bad_schedule). vm_compute. reflexivity.
  - exists [((SChar 97, SChar 120), 0)], 0. split; [|auto]. exists 1%nat. split; [|cbn; auto].
    econstructor; [left; reflexivity| |constructor]. exists 97, 120. split; [reflexivity|]. cbn. lia.
  - intros z c (tr & f & (q & Ht & Hf) & H1 & _). inversion Ht as [|? b x w q' tr' ? Ha Hx Ht']; subst; [discriminate|].
    destruct Ha as [Ha|[]]. injection Ha as <- <- <-. destruct Hx as (l & r & Hd & Hl & Hr). cbn in Hd. injection Hd as <- <-.
    destruct x as [x y]. cbn [fst snd] in Hl. destruct x as [n|k]; cbn in Hl; [lia|]. destruct Hl as [_ <-]. unfold sym_in in H1. cbn in H1. discriminate.
Qed.
(** Both threads make the same pair: the numbers of the alphabet and the pairs no longer
    correspond, and the next pair is read as another one. *)
Theorem C34_alphabet_refuted : exists a', exec [pair_code_p (97, 120); pair_code_p (97, 120)] new_alphabet (Ok ([1; 1], a'))
  /\ fst (pair_code (98, 121) a') = 2 /\ decode 2 (snd (pair_code (98, 121) a')) = Ok (97, 120).
Proof.
  eexists. split; [apply (after_schedule_exec [0; 0; 1; 1; 0; 0; 1; 1; 0; 1]%nat); vm_compute; reflexivity|]. split; vm_compute; reflexivity.
Qed.

(** * Examples *)
Example C34_minimise_example : exists ts', minimize_all 0 [tA; xy_trans; tA] = Ok ts'
  /\ exec (minimisations 0 [tA; xy_trans; tA]) [tA; xy_trans; tA] (Ok ([tt; tt; tt], ts')).
Proof.
  eexists. split; [vm_compute; reflexivity|].
  apply (after_schedule_exec [2; 1; 0; 0; 1; 2; 1; 1; 0; 2; 1; 2; 0; 0; 2]%nat). vm_compute. reflexivity.
Qed.
(** Section "a" and a dictionary that keeps a and drops b; all pairs are known. *)
Example C34_compose_known_example :
  let fs := [([65], one_arc 1); ([66], mkT 0 [(1%nat, 0); (2%nat, 0)] [[(1, (1%nat, 0)); (2, (2%nat, 0))]; []; []])] in
  exists rs, compose_seq 10 ab_alphabet false false (one_arc 1) fs ab_alphabet = Ok (rs, ab_alphabet) /\ length rs = 2%nat
    /\ exec (compositions 10 ab_alphabet false false (one_arc 1) fs) ab_alphabet (Ok (map snd rs, ab_alphabet)).
Proof.
  cbv zeta. eexists. split; [vm_compute; reflexivity|]. split; [reflexivity|].
  apply (after_schedule_exec ([0; 1; 1; 0; 0; 1; 1; 0]%nat ++ [1; 1; 1]%nat)). vm_compute. reflexivity.
Qed.

Print Assumptions C34_minimise.
Print Assumptions C34_compose_serial.
Print Assumptions C34_compose_known.
Print Assumptions C34_compose_refuted.
Print Assumptions C34_alphabet_refuted.
