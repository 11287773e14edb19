(** C69: paths through the automaton are the words that fit. *)
From Verif Require Import Base CompressionModel AlphabetModel AlphabetProofs TransducerModel TransducerSpec MatchModel MatchProps PatternModel PatternSpec PatternBuildProofs.
From Coq Require Import Sorted.

(** * What fits, from the end *)
Lemma fits_app : forall x y u v, fits x u -> fits y v -> fits (x ++ y) (u ++ v).
Proof.
  intros x y u v H Hy. induction H; cbn [app]; try (constructor; auto; fail); auto.
  - rewrite <- app_assoc. now apply ft_any_char.
  - rewrite <- app_assoc. now apply ft_any_tag.
  - rewrite <- app_assoc. now apply ft_queue.
Qed.
Lemma fits_split : forall x y w, fits (x ++ y) w -> exists u v, w = u ++ v /\ fits x u /\ fits y v.
Proof.
  induction x as [|a x IH]; intros y w H; cbn [app] in H; [exists [], w; split; [reflexivity|split; [constructor|exact H]]|].
  remember (a :: x ++ y) as l eqn:E. destruct H as [|c a' w H|n a' w H|cs a' w Hc H|ns a' w Hn H|a' w H|c cs a' w Hc H]; try discriminate E; injection E as <- ->; apply IH in H as (u & v & -> & H1 & H2).
  - exists (SChar c :: u), v. split; [reflexivity|]. split; [now constructor|exact H2].
  - exists (STag n :: u), v. split; [reflexivity|]. split; [now constructor|exact H2].
  - exists (map SChar cs ++ u), v. rewrite app_assoc. split; [reflexivity|]. split; [now constructor|exact H2].
  - exists (map STag ns ++ u), v. rewrite app_assoc. split; [reflexivity|]. split; [now constructor|exact H2].
  - exists u, v. split; [reflexivity|]. split; [now constructor|exact H2].
  - exists (SChar c :: map SChar cs ++ u), v. cbn [app]. rewrite app_assoc. split; [reflexivity|]. split; [now constructor|exact H2].
Qed.
Inductive ends_at : list atom -> list sym -> Prop :=
| ea_nil : ends_at [] []
| ea_new al x s w : ends_at al w -> takes x s -> ends_at (al ++ [x]) (w ++ [s])
| ea_skip al x s w : ends_at al w -> takes x s -> x <> AQueue -> ends_at (al ++ [AQueue; x]) (w ++ [s])
| ea_more al x s w : ends_at (al ++ [x]) w -> more x s -> ends_at (al ++ [x]) (w ++ [s])
with takes : atom -> sym -> Prop :=
| tk_char c : takes (AChar c) (SChar c)
| tk_tag n : takes (ATag n) (STag n)
| tk_any_char c : takes AAnyChar (SChar c)
| tk_any_tag n : takes AAnyTag (STag n)
| tk_queue c : In c [95; 32; 35] -> takes AQueue (SChar c)
with more : atom -> sym -> Prop :=
| mo_any_char c : more AAnyChar (SChar c)
| mo_any_tag n : more AAnyTag (STag n)
| mo_queue c : more AQueue (SChar c).
Definition one_queue (al : list atom) : Prop := forall x y, al <> x ++ [AQueue; AQueue] ++ y.
Lemma one_queue_prefix : forall al x, one_queue (al ++ [x]) -> one_queue al.
Proof. intros al x H u v E. apply (H u (v ++ [x])). rewrite E, <- !app_assoc. reflexivity. Qed.
Lemma takes_fits : forall x s, takes x s -> fits [x] [s].
Proof.
  intros x s [c|n|c|n|c Hc]; try (constructor; constructor).
  - apply (ft_any_char [c] [] []); [discriminate|constructor].
  - apply (ft_any_tag [n] [] []); [discriminate|constructor].
  - apply (ft_queue c [] [] []); [exact Hc|constructor].
Qed.
(** what one atom takes *)
Lemma fits_nil : forall w, fits [] w -> w = [].
Proof. intros w H. remember [] as l eqn:E. destruct H; try discriminate E. reflexivity. Qed.
Inductive shape : atom -> list sym -> Prop :=
| sh_char c : shape (AChar c) [SChar c]
| sh_tag n : shape (ATag n) [STag n]
| sh_any_char c cs : shape AAnyChar (map SChar (c :: cs))
| sh_any_tag n ns : shape AAnyTag (map STag (n :: ns))
| sh_no_queue : shape AQueue []
| sh_queue c cs : In c [95; 32; 35] -> shape AQueue (map SChar (c :: cs)).
Lemma one_atom : forall x v, fits [x] v -> shape x v.
Proof.
  intros x v H. remember [x] as l eqn:E. destruct H as [|c a' w H|n a' w H|cs a' w Hc H|ns a' w Hn H|a' w H|c cs a' w Hc H]; try discriminate E; injection E as <- ->; apply fits_nil in H; subst w; rewrite ?app_nil_r; try constructor.
  - destruct cs; [congruence|constructor].
  - destruct ns; [congruence|constructor].
  - exact Hc.
Qed.
Lemma shape_fits : forall x v, shape x v -> fits [x] v.
Proof.
  intros x v [c|n|c cs|n ns| |c cs Hc]; try (constructor; constructor).
  - rewrite <- (app_nil_r (map _ _)). apply ft_any_char; [discriminate|constructor].
  - rewrite <- (app_nil_r (map _ _)). apply ft_any_tag; [discriminate|constructor].
  - cbn [map]. rewrite <- (app_nil_r (map _ _)). apply ft_queue; [exact Hc|constructor].
Qed.
Lemma shape_more : forall x v s, shape x v -> v <> [] -> more x s -> shape x (v ++ [s]).
Proof.
  intros x v s H Hv M. destruct M as [c|n|c].
  - remember AAnyChar as x eqn:E. destruct H; try discriminate E. change [SChar c] with (map SChar [c]). rewrite <- map_app. constructor.
  - remember AAnyTag as x eqn:E. destruct H; try discriminate E. change [STag n] with (map STag [n]). rewrite <- map_app. constructor.
  - remember AQueue as x eqn:E. destruct H; try discriminate E; [congruence|]. change [SChar c] with (map SChar [c]). rewrite <- map_app. now constructor.
Qed.
Lemma snoc_case : forall {A} (l : list A), l = [] \/ exists r x, l = r ++ [x].
Proof. intros A l. destruct l as [|x r] using rev_ind; eauto. Qed.
(** ends_at: at the end of the last atom, which has taken something *)
Lemma ends_fits : forall al w, ends_at al w -> al = [] /\ w = [] \/ exists r x u v, al = r ++ [x] /\ w = u ++ v /\ fits r u /\ shape x v /\ v <> [].
Proof.
  assert (TS : forall x s, takes x s -> shape x [s]).
  { intros x s [c|n|c|n|c Hc]; try constructor; [apply (sh_any_char c [])|apply (sh_any_tag n [])|now apply (sh_queue c [])]. }
  intros al w H. induction H as [|al x s w H IH T|al x s w H IH T N|al x s w H IH M].
  - auto.
  - right. exists al, x, w, [s]. split; [reflexivity|]. split; [reflexivity|]. split; [|split; [now apply TS|discriminate]].
    destruct IH as [[-> ->]|(r & y & u & v & -> & -> & F & S & _)]; [constructor|]. apply fits_app; [exact F|now apply shape_fits].
  - right. exists (al ++ [AQueue]), x, w, [s]. rewrite <- app_assoc. split; [reflexivity|]. split; [reflexivity|]. split; [|split; [now apply TS|discriminate]].
    rewrite <- (app_nil_r w). apply fits_app; [|constructor; constructor].
    destruct IH as [[-> ->]|(r & y & u & v & -> & -> & F & S & _)]; [constructor|]. apply fits_app; [exact F|now apply shape_fits].
  - right. destruct IH as [[E _]|(r & y & u & v & E & -> & F & S & Hv)]; [destruct al; discriminate E|]. apply app_inj_tail in E as [-> ->].
    exists r, y, u, (v ++ [s]). rewrite app_assoc. split; [reflexivity|]. split; [reflexivity|]. split; [exact F|]. split; [now apply shape_more|destruct v; discriminate].
Qed.
Lemma shape_ends : forall x v, shape x v -> v <> [] -> exists s r, v = s :: r /\ takes x s /\ Forall (more x) r.
Proof.
  intros x v [c|n|c cs|n ns| |c cs Hc] Hv; [| | | |congruence|].
  1, 2: eexists _, []; split; [reflexivity|]; split; constructor.
  all: eexists _, _; split; [reflexivity|]; split; [now constructor|]; apply Forall_forall; intros y Hy; apply in_map_iff in Hy as (z & <- & _); constructor.
Qed.
Lemma ends_more : forall x r al w, ends_at (al ++ [x]) w -> Forall (more x) r -> ends_at (al ++ [x]) (w ++ r).
Proof.
  intros x r. induction r as [|s r IH] using rev_ind; intros al w H F; [now rewrite app_nil_r|]. apply Forall_app in F as [F1 F2]. inversion F2; subst.
  rewrite app_assoc. apply ea_more; auto.
Qed.
(** What fits, at the end of the last atom or before a queue that takes nothing *)
Lemma fits_ends : forall al w, one_queue al -> (fits al w <-> ends_at al w \/ exists al0, al = al0 ++ [AQueue] /\ ends_at al0 w).
Proof.
  intros al w Hq. split.
  - revert w Hq. induction al as [|x al IH] using rev_ind; intros w Hq H.
    + apply fits_nil in H. subst. left. constructor.
    + apply fits_split in H as (u & v & -> & H1 & H2). apply one_atom in H2. apply IH in H1; [|eapply one_queue_prefix; eauto].
      destruct (snoc_case v) as [->|(v' & s0 & Ev)].
      * assert (x = AQueue) as -> by (now inversion H2). rewrite app_nil_r.
        destruct H1 as [H1|(al0 & -> & H1)]; [eauto|]. exfalso. apply (Hq al0 []). now rewrite <- app_assoc.
      * destruct (shape_ends _ _ H2) as (s & r & -> & T & F); [intros E0; rewrite E0 in Ev; destruct v'; discriminate Ev|]. left.
        replace (u ++ s :: r) with ((u ++ [s]) ++ r) by now rewrite <- app_assoc. apply ends_more; [|exact F].
        destruct H1 as [H1|(al0 & -> & H1)]; [now constructor|]. rewrite <- app_assoc. apply ea_skip; auto. intros ->. apply (Hq al0 []). now rewrite <- app_assoc.
  - assert (G : forall al w, ends_at al w -> fits al w).
    { clear. intros al w H. apply ends_fits in H as [[-> ->]|(r & x & u & v & -> & -> & F & S & _)]; [constructor|]. apply fits_app; [exact F|now apply shape_fits]. }
    intros [H|(al0 & -> & H)]; [auto|]. rewrite <- (app_nil_r w). apply fits_app; [auto|constructor; constructor].
Qed.

(** * Codes *)
Definition tag_code (a : alphabet) (n : ustr) : Z := symbol_code ([60] ++ n ++ [62]) a.
Section Paths.
  Context (a : alphabet).
  Notation anyc := (symbol_code ANY_CHAR a).
  Notation anyt := (symbol_code ANY_TAG a).
  Notation queue := (symbol_code QUEUE a).
  Notation tc := (tag_code a).
  Hypothesis tc_neg : forall n, tc n <> 0 -> tc n < 0.
  Hypothesis tc_inj : forall n m, tc n <> 0 -> tc n = tc m -> n = m.
  Hypothesis Hac : anyc <> 0. Hypothesis Hat : anyt <> 0. Hypothesis Hqu : queue <> 0.

  Definition code (x : atom) : Z :=
    match x with AChar c => c | AAnyChar => anyc | ATag n => tc n | AAnyTag => anyt | AQueue => queue end.
  Definition atom_ok (x : atom) : Prop :=
    match x with AChar c => 0 < c | ATag n => ~ In n reserved /\ tc n <> 0 | _ => True end.
  Definition sym_ok (s : sym) : Prop := match s with SChar c => 0 < c | STag n => ~ In n reserved end.
  (** what step is given *)
  Definition step_of (s : sym) : list Z :=
    match s with SChar c => [c; anyc] | STag n => if tc n =? 0 then [anyt] else [tc n; anyt] end.

  Lemma code_inj : forall x y, atom_ok x -> atom_ok y -> code x = code y -> x = y.
  Proof.
    pose proof (tc_neg [65; 78; 89; 95; 67; 72; 65; 82] Hac) as Nc. pose proof (tc_neg [65; 78; 89; 95; 84; 65; 71] Hat) as Nt. pose proof (tc_neg [81; 85; 69; 85; 69] Hqu) as Nq.
    change (anyc < 0) in Nc. change (anyt < 0) in Nt. change (queue < 0) in Nq.
    assert (R : forall n r, In r reserved -> ~ In n reserved -> tc n <> 0 -> tc n <> tc r).
    { intros n r Hr Hn H0 E. apply tc_inj in E; [|exact H0]. subst. contradiction. }
    assert (Dct : anyc <> anyt) by (intros E; apply (tc_inj [65; 78; 89; 95; 67; 72; 65; 82] [65; 78; 89; 95; 84; 65; 71] Hac) in E; discriminate).
    assert (Dcq : anyc <> queue) by (intros E; apply (tc_inj [65; 78; 89; 95; 67; 72; 65; 82] [81; 85; 69; 85; 69] Hac) in E; discriminate).
    assert (Dtq : anyt <> queue) by (intros E; apply (tc_inj [65; 78; 89; 95; 84; 65; 71] [81; 85; 69; 85; 69] Hat) in E; discriminate).
    assert (X : forall n, ~ In n reserved -> tc n <> 0 -> tc n <> anyc /\ tc n <> anyt /\ tc n <> queue).
    { intros n H1 H2. split; [|split].
      - apply (R n [65; 78; 89; 95; 67; 72; 65; 82]); auto. now left.
      - apply (R n [65; 78; 89; 95; 84; 65; 71]); auto. right. now left.
      - apply (R n [81; 85; 69; 85; 69]); auto. right. right. now left. }
    intros [c| |n| |] [d| |m| |] Hx Hy E; cbn [code atom_ok] in *; try reflexivity; try congruence;
      try (pose proof (tc_neg _ (proj2 Hx)); pose proof (X _ (proj1 Hx) (proj2 Hx))); try (pose proof (tc_neg _ (proj2 Hy)); pose proof (X _ (proj1 Hy) (proj2 Hy))); try (exfalso; lia); try (exfalso; intuition congruence).
    f_equal. apply tc_inj; [apply Hx|exact E].
  Qed.

  (** Paths over keys *)
  Inductive reaches : list Z -> list (list Z) -> Prop :=
  | re_nil : reaches [] []
  | re_step k v k' steps syms : reaches k steps -> In v syms -> link a k v k' -> reaches k' (steps ++ [syms]).
  Lemma codes_snoc : forall al k v, k ++ [v] = map code al -> exists al0 x, al = al0 ++ [x] /\ k = map code al0 /\ v = code x.
  Proof.
    intros al k v E. destruct (snoc_case al) as [->|(al0 & x & ->)]; [destruct k; discriminate E|]. rewrite map_app in E. cbn [map] in E. apply app_inj_tail in E as [-> ->]. eauto.
  Qed.
  Lemma takes_step : forall x s, atom_ok x -> sym_ok s -> x <> AQueue -> (takes x s <-> In (code x) (step_of s)).
  Proof.
    intros x s Hx Hs Hq. split.
    - intros T. destruct T as [c|n|c|n|c Hc]; cbn [code step_of].
      + now left.
      + destruct Hx as [_ Hx]. rewrite (proj2 (Z.eqb_neq _ _) Hx). now left.
      + right. now left.
      + destruct (_ =? _); [now left|right; now left].
      + congruence.
    - intros H. destruct s as [c|n]; cbn [step_of sym_ok] in *.
      + destruct H as [H|[H|[]]].
        * assert (x = AChar c) as -> by (exact (code_inj x (AChar c) Hx Hs (eq_sym H))). constructor.
        * assert (x = AAnyChar) as -> by (exact (code_inj x AAnyChar Hx I (eq_sym H))). constructor.
      + destruct (tc n =? 0) eqn:E.
        * destruct H as [H|[]]. assert (x = AAnyTag) as -> by (exact (code_inj x AAnyTag Hx I (eq_sym H))). constructor.
        * apply Z.eqb_neq in E. destruct H as [H|[H|[]]].
          -- assert (x = ATag n) as -> by (exact (code_inj x (ATag n) Hx (conj Hs E) (eq_sym H))). constructor.
          -- assert (x = AAnyTag) as -> by (exact (code_inj x AAnyTag Hx I (eq_sym H))). constructor.
  Qed.
  Lemma step_pos : forall v s, 0 < v -> sym_ok s -> (In v (step_of s) <-> s = SChar v).
  Proof.
    intros v s Hv Hs. pose proof (tc_neg [65; 78; 89; 95; 67; 72; 65; 82] Hac) as Nc. pose proof (tc_neg [65; 78; 89; 95; 84; 65; 71] Hat) as Nt. change (anyc < 0) in Nc. change (anyt < 0) in Nt.
    split; [|intros ->; cbn; auto]. destruct s as [c|n]; cbn [step_of].
    - intros [->|[H|[]]]; [reflexivity|lia].
    - destruct (tc n =? 0) eqn:E; [intros [H|[]]; lia|]. apply Z.eqb_neq in E. apply tc_neg in E. intros [H|[H|[]]]; lia.
  Qed.
  Lemma more_step : forall x s, sym_ok s -> (more x s <-> (x = AAnyChar \/ x = AQueue) /\ In anyc (step_of s) \/ x = AAnyTag /\ In anyt (step_of s)).
  Proof.
    intros x s Hs.
    assert (C : In anyc (step_of s) <-> exists c, s = SChar c).
    { pose proof (takes_step AAnyChar s I Hs ltac:(discriminate)) as T. cbn [code] in T. rewrite <- T. split; [intros X; inversion X; eauto|intros (c & ->); constructor]. }
    assert (T : In anyt (step_of s) <-> exists n, s = STag n).
    { pose proof (takes_step AAnyTag s I Hs ltac:(discriminate)) as T. cbn [code] in T. rewrite <- T. split; [intros X; inversion X; eauto|intros (c & ->); constructor]. }
    rewrite C, T. split.
    - intros [c|n|c]; eauto.
    - intros [[[->| ->] (c & ->)]|[-> (n & ->)]]; constructor.
  Qed.
  Lemma qmark_in : forall c, qmark c <-> In c [95; 32; 35].
  Proof. intros c. reflexivity. Qed.
  Lemma qmark_gt : forall c, In c [95; 32; 35] -> 0 < c.
  Proof. intros c [<-|[<-|[<-|[]]]]; lia. Qed.
  Lemma reaches_ends : forall w al, Forall atom_ok al -> Forall sym_ok w -> (reaches (map code al) (map step_of w) <-> ends_at al w).
  Proof.
    intros w al Ha Hw. split.
    - revert al Ha Hw. induction w as [|s w IH] using rev_ind; intros al Ha Hw H.
      + inversion H as [E|k v k' steps syms ? ? ? E1 E2]; [|destruct steps; discriminate]. symmetry in E. apply map_eq_nil in E as ->. constructor.
      + rewrite map_app in H. cbn [map] in H. apply Forall_app in Hw as [Hw Hs]. apply Forall_inv in Hs.
        inversion H as [E E2|k v k' steps syms R Hin L E1 E2]; [destruct (map step_of w); discriminate E2|]. apply app_inj_tail in E2 as [-> ->]. clear H. subst k'.
        destruct L as [[E N]|[(E & A & k0 & E0)|[(E & Q)|[(E & V & k0 & E0)|(E & N)]]]].
        * symmetry in E. apply codes_snoc in E as (al0 & x & -> & -> & ->). apply Forall_app in Ha as [Ha Hx]. apply Forall_inv in Hx. constructor; [now apply IH|].
          apply takes_step; auto. intros ->. now apply N.
        * subst k. symmetry in E0. apply codes_snoc in E0 as (al0 & x & -> & Ek & ->).
          pose proof (proj2 (proj1 (Forall_app _ _ _) Ha)) as Hx. apply Forall_inv in Hx. apply ea_more; [now apply IH|]. apply more_step; [exact Hs|].
          destruct A as [A|A]; rewrite A in Hin.
          -- assert (x = AAnyChar) by (apply (code_inj x AAnyChar Hx I); assumption). auto.
          -- assert (x = AAnyTag) by (apply (code_inj x AAnyTag Hx I); assumption). auto.
        * symmetry in E. apply codes_snoc in E as (al0 & x & -> & -> & Ex). apply Forall_app in Ha as [Ha Hx]. apply Forall_inv in Hx.
          assert (x = AQueue) as -> by (exact (code_inj x AQueue Hx I (eq_sym Ex))). constructor; [now apply IH|].
          apply step_pos in Hin as ->; [|now apply qmark_gt|exact Hs]. now constructor.
        * subst k v. symmetry in E0. apply codes_snoc in E0 as (al0 & x & -> & Ek & Ex).
          pose proof (proj2 (proj1 (Forall_app _ _ _) Ha)) as Hx. apply Forall_inv in Hx. apply ea_more; [now apply IH|]. apply more_step; [exact Hs|].
          assert (x = AQueue) by (exact (code_inj x AQueue Hx I (eq_sym Ex))). auto.
        * symmetry in E. rewrite snoc2 in E. apply codes_snoc in E as (al1 & x & -> & E & ->). apply codes_snoc in E as (al0 & y & -> & -> & Ey).
          rewrite <- app_assoc in Ha |- *. cbn [app] in Ha |- *. apply Forall_app in Ha as [Ha Hx]. inversion Hx as [|? ? Hy Hx']; subst. apply Forall_inv in Hx'.
          assert (y = AQueue) as -> by (exact (code_inj y AQueue Hy I (eq_sym Ey))).
          assert (x <> AQueue) by (intros ->; now apply N). apply ea_skip; [now apply IH| |assumption]. now apply takes_step.
    - intros H. induction H as [|al x s w H IH T|al x s w H IH T N|al x s w H IH M].
      + constructor.
      + apply Forall_app in Ha as [Ha Hx]. apply Forall_inv in Hx. apply Forall_app in Hw as [Hw Hs]. apply Forall_inv in Hs. rewrite !map_app. cbn [map].
        destruct (Z.eq_dec (code x) queue) as [E|N].
        * assert (x = AQueue) as -> by (apply (code_inj x AQueue Hx I); assumption). inversion T as [| | | |c Hc]; subst.
          apply (re_step (map code al) c); [now apply IH|now left|]. right; right; left. split; [reflexivity|exact Hc].
        * apply (re_step (map code al) (code x)); [now apply IH| |left; auto]. apply takes_step; auto. intros ->. now apply N.
      + apply Forall_app in Ha as [Ha Hx]. inversion Hx as [|? ? _ Hx']; subst. apply Forall_inv in Hx'. apply Forall_app in Hw as [Hw Hs]. apply Forall_inv in Hs. rewrite !map_app. cbn [map].
        apply (re_step (map code al) (code x)); [now apply IH|now apply takes_step|]. right; right; right; right. split; [reflexivity|].
        intros E. now apply N, (code_inj x AQueue Hx' I).
      + apply Forall_app in Hw as [Hw Hs]. apply Forall_inv in Hs. pose proof (IH Ha Hw) as R. rewrite (map_app step_of). cbn [map].
        assert (El : map code (al ++ [x]) = map code al ++ [code x]) by now rewrite map_app.
        apply (more_step x s Hs) in M as [[[->| ->] Hin]|[-> Hin]]; (eapply re_step; [exact R|exact Hin|rewrite El]).
        * right; left. split; [reflexivity|]. split; [now left|eexists; reflexivity].
        * right; right; right; left. split; [reflexivity|]. split; [reflexivity|eexists; reflexivity].
        * right; left. split; [reflexivity|]. split; [now right|eexists; reflexivity].
  Qed.
  Lemma reaches_prefix : forall k v k', link a k v k' -> exists y, k' = k ++ y.
  Proof. intros k v k' [[-> _]|[(-> & _)|[(-> & _)|[(-> & _)|(-> & _)]]]]; try (eexists; reflexivity); exists []; now rewrite app_nil_r. Qed.

  (** * Paths through the automaton *)
  Context (B : list Z -> Prop).
  Context (ks : list (list Z)) (t : transducer).
  Hypothesis T : trie a B ks t.
  Lemma closed_app : forall y k, In (k ++ y) ks -> In k ks.
  Proof. induction y as [|v y IH] using rev_ind; intros k H; [now rewrite app_nil_r in H|]. rewrite app_assoc in H. apply IH. eapply tr_closed; eauto. Qed.
  Lemma node_arc : forall p v q, In (v, q) (nth p (match_exe t) []) <-> In (v, (q, 0)) (arcs_of t p).
  Proof.
    intros p v q. unfold match_exe. change (@nil (Z * nat)) with (map (fun x : arc => (a_tag x, a_dst x)) []). rewrite map_nth. fold (arcs_of t p). rewrite in_map_iff. split.
    - intros ([v' [q' w]] & E & H). cbn in E. injection E as -> ->. destruct (tr_rows _ _ _ _ T p) as (_ & _ & R). destruct (R _ _ _ H) as [-> _]. exact H.
    - intros H. exists (v, (q, 0)). auto.
  Qed.
  Lemma mpath_snoc : forall nodes steps n syms q, mpath nodes n (steps ++ [syms]) q <-> exists m s, mpath nodes n steps m /\ In s syms /\ In (s, q) (nth m nodes []).
  Proof.
    intros nodes. induction steps as [|x steps IH]; intros n syms q; cbn [app]; split.
    - intros H. inversion H as [|? ? s d ? ? Hs Hd Hq]; subst. inversion Hq; subst. exists n, s. split; [constructor|auto].
    - intros (m & s & H & Hs & Hd). inversion H; subst. econstructor; eauto. constructor.
    - intros H. inversion H as [|? ? s d ? ? Hs Hd Hq]; subst. apply IH in Hq as (m & s' & H1 & H2 & H3). exists m, s'. split; [econstructor; eauto|auto].
    - intros (m & s & H & Hs & Hd). inversion H as [|? ? s' d ? ? Hs' Hd' Hq']; subst. econstructor; eauto. apply IH. eauto.
  Qed.
  Lemma mpath_reaches : forall steps q k, nth_error ks q = Some k -> (mpath (match_exe t) 0 steps q <-> reaches k steps).
  Proof.
    induction steps as [|syms steps IH] using rev_ind; intros q k Hk; split.
    - intros H. inversion H; subst. rewrite (tr_root _ _ _ _ T) in Hk. injection Hk as <-. constructor.
    - intros H. inversion H as [E|k0 v0 k1 st sy R0 Hi0 L0 E1 E2]; [|destruct st; discriminate E2]. subst. assert (q = 0%nat) as -> by (eapply key_unique; eauto; apply (tr_root _ _ _ _ T)). constructor.
    - intros H. apply mpath_snoc in H as (m & s & H & Hs & Hd). apply node_arc in Hd.
      assert (Xm : exists km, nth_error ks m = Some km).
      { destruct (nth_error ks m) as [km|] eqn:E; [eauto|exfalso]. apply nth_error_None in E. rewrite (tr_len _ _ _ _ T) in E. unfold arcs_of in Hd. rewrite nth_overflow in Hd; [destruct Hd|exact E]. }
      destruct Xm as (km & Hm). pose proof (proj1 (tr_arcs _ _ _ _ T m km s q Hm) Hd) as (kq & Hq & L). rewrite Hk in Hq. injection Hq as <-. apply (re_step km s k); [now apply (IH m)|exact Hs|exact L].
    - intros H. inversion H as [E E2|k0 v k' steps' syms' R Hin L E1 E2]; [destruct steps; discriminate E2|]. apply app_inj_tail in E2 as [-> ->]. subst k'.
      assert (Hk0 : In k0 ks).
      { destruct (reaches_prefix _ _ _ L) as (y & ->). apply (closed_app y). eapply nth_error_In; eauto. }
      apply In_nth_error in Hk0 as [m Hm]. apply mpath_snoc. exists m, v. split; [now apply (IH m k0)|]. split; [exact Hin|]. apply node_arc. apply (tr_arcs _ _ _ _ T _ _ _ _ Hm). eauto.
  Qed.
End Paths.
