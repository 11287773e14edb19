(** C69: simple patterns, and how many nodes are live. *)
From Verif Require Import Base CompressionModel AlphabetModel AlphabetProofs TransducerModel TransducerSpec MatchModel MatchProps PatternModel PatternSpec PatternBuildProofs PatternPathProofs PatternRunProofs PatternMatchProofs.
From Coq Require Import Sorted.

Lemma ends_snoc : forall al w s, ends_at al (w ++ [s]) ->
  (exists u x, al = u ++ [x] /\ ends_at u w /\ takes x s) \/ (exists u x, al = u ++ [AQueue; x]) \/ (exists u x, al = u ++ [x] /\ ends_at al w /\ more x s).
Proof.
  intros al w s H. inversion H as [E1 E2|u x s' w' H1 H2 E1 E2|u x s' w' H1 H2 H3 E1 E2|u x s' w' H1 H2 E1 E2].
  - destruct w; discriminate E2.
  - apply app_inj_tail in E2 as [-> ->]. left. eauto 6.
  - right. left. eauto.
  - apply app_inj_tail in E2 as [-> ->]. right. right. exists u, x. auto.
Qed.
Lemma prefix_snoc : forall {A} (u v : list A) x y r1 r2, u = v -> (u ++ [x]) ++ r1 = (v ++ [y]) ++ r2 -> x = y.
Proof. intros A u v x y r1 r2 -> E. rewrite <- !app_assoc in E. apply app_inv_head in E. now injection E. Qed.
(** In a simple pattern a word ends in one place only. *)
Lemma simple_unique : forall al, simple al -> forall w x y r1 r2, al = x ++ r1 -> al = y ++ r2 -> ends_at x w -> ends_at y w -> x = y.
Proof.
  intros al S. induction w as [|s w IH] using rev_ind; intros x y r1 r2 E1 E2 H1 H2.
  - apply ends_fits in H1 as [[-> _]|(? & ? & ? & v & _ & E & _ & _ & Hv)]; [|symmetry in E; apply app_eq_nil in E as [_ E]; congruence].
    apply ends_fits in H2 as [[-> _]|(? & ? & ? & v & _ & E & _ & _ & Hv)]; [|symmetry in E; apply app_eq_nil in E as [_ E]; congruence]. reflexivity.
  - assert (NS : forall z r u v, al = z ++ r -> z = u ++ [AQueue; v] -> False).
    { intros z r u v E ->. rewrite <- app_assoc in E. apply (S u AQueue v r E). }
    assert (NM : forall u z r v q, al = (u ++ [z]) ++ r -> ends_at u w -> takes z s -> forall r', al = (v ++ [q]) ++ r' -> ends_at (v ++ [q]) w -> more q s -> False).
    { intros u z r v q A1 A2 A3 r' A4 A5 A6. assert (u = v ++ [q]) by (apply (IH u (v ++ [q]) (z :: r) r'); auto; rewrite <- app_assoc in A1; exact A1). subst u.
      rewrite <- !app_assoc in A1. cbn [app] in A1. specialize (S v q z r A1). destruct A6; cbn in S.
      - destruct S as [->|(n & ->)]; inversion A3.
      - destruct S as [->|(n0 & ->)]; inversion A3.
      - exact S. }
    apply ends_snoc in H1 as [(u1 & x1 & -> & K1 & T1)|[(u1 & x1 & K1)|(u1 & x1 & -> & K1 & T1)]]; apply ends_snoc in H2 as [(u2 & x2 & -> & K2 & T2)|[(u2 & x2 & K2)|(u2 & x2 & -> & K2 & T2)]];
      try (exfalso; exact (NS _ _ _ _ E1 K1)); try (exfalso; exact (NS _ _ _ _ E2 K2)).
    + assert (u1 = u2) as <- by (apply (IH u1 u2 (x1 :: r1) (x2 :: r2)); auto; [rewrite E1, <- app_assoc; reflexivity|rewrite E2, <- app_assoc; reflexivity]).
      assert (x1 = x2) as <- by (apply (prefix_snoc u1 u1 x1 x2 r1 r2 eq_refl); congruence). reflexivity.
    + exfalso. eapply (NM u1 x1 r1 u2 x2); eauto.
    + exfalso. eapply (NM u2 x2 r2 u1 x1); eauto.
    + eapply IH; eauto.
Qed.

Lemma NoDup_join : forall {A} (l m : list A), NoDup l -> NoDup m -> (forall x, In x l -> ~ In x m) -> NoDup (l ++ m).
Proof.
  intros A l m Hl Hm H. induction Hl as [|x l Hx Hl IH]; [exact Hm|]. cbn [app]. constructor; [|apply IH; intros y Hy; apply H; now right].
  intros K. apply in_app_or in K as [K|K]; [contradiction|]. apply (H x); [now left|exact K].
Qed.
Lemma NoDup_flat : forall {A B} (f : A -> list B) l, NoDup l -> (forall x, In x l -> NoDup (f x)) ->
  (forall x y z, In x l -> In y l -> In z (f x) -> In z (f y) -> x = y) -> NoDup (flat_map f l).
Proof.
  intros A B f l Hl. induction Hl as [|x l Hx Hl IH]; intros H1 H2; cbn [flat_map]; [constructor|]. apply NoDup_join.
  - apply H1. now left.
  - apply IH; [intros; apply H1; now right|]. intros y z u Hy Hz. apply H2; now right.
  - intros z Hz K. apply in_flat_map in K as (y & Hy & K). assert (x = y) by (eapply H2; eauto; [now left|now right]). subst. contradiction.
Qed.
Lemma pigeon : forall {A B} (R : A -> B -> Prop) (l : list A) (m : list B), NoDup l ->
  (forall x, In x l -> exists y, In y m /\ R x y) -> (forall x x' y, In x l -> In x' l -> R x y -> R x' y -> x = x') -> (length l <= length m)%nat.
Proof.
  intros A B R l m Hl Ht Hi.
  assert (G : exists ys, Forall2 R l ys /\ incl ys m /\ NoDup ys).
  { induction Hl as [|x l Hx Hl IH]; [exists []; split; [constructor|split; [intros y []|constructor]]|].
    destruct IH as (ys & F & I & N); [intros y Hy; apply Ht; now right|intros y z u Hy Hz; apply Hi; now right|].
    destruct (Ht x (or_introl eq_refl)) as (y & Hy & Rxy). exists (y :: ys). split; [now constructor|]. split; [intros z [<-|Hz]; auto|]. constructor; [|exact N].
    intros K. assert (exists x', In x' l /\ R x' y) as (x' & Hx' & R').
    { clear - F K. induction F as [|u v l ys Ruv F IH]; [destruct K|]. destruct K as [->|K]; [exists u; split; [now left|exact Ruv]|]. destruct (IH K) as (x' & H1 & H2). exists x'. split; [now right|exact H2]. }
    assert (x = x') by (eapply Hi; eauto; [now left|now right]). subst. contradiction. }
  destruct G as (ys & F & I & N). pose proof (NoDup_incl_length N I). assert (length l = length ys) by (clear - F; induction F; cbn; congruence). lia.
Qed.

Section Room.
  Context (p : plist) (s : store).
  Hypothesis H : state_ok p s.
  Hypothesis Hc : compatible s.
  Hypothesis Hs : forall id al, In (id, al) s -> simple al.
  Notation a := (pl_alpha p).
  Notation Bk := (beginning a s).
  Context (ks : list (list Z)) (t : transducer) (ft : list (nat * Z)).
  Hypothesis HB : built a Bk ks (pl_patterns p) t ft.
  Let T : trie a Bk ks t := proj1 HB.
  Notation nodes := (match_exe t).

  (** one live node per pattern *)
  Definition through (q : nat) (x : Z * list atom) : Prop := exists k r, nth_error ks q = Some k /\ map (code a) (snd x) = k ++ r.
  Lemma through_some : forall w q, w <> [] -> mpath nodes 0 (map (step_of a) w) q -> exists x, In x s /\ through q x.
  Proof.
    intros w q Hw P. destruct (path_node p s ks t ft HB _ _ P) as (k & Hk). destruct (tr_B _ _ _ _ T k) as [->|(id & al & r & Hi & E)]; [eapply nth_error_In; eauto| |].
    - exfalso. assert (q = 0%nat) as -> by (eapply (key_unique a Bk ks t); eauto; apply (tr_root _ _ _ _ T)). apply (mpath_reaches a Bk ks t T _ _ _ Hk) in P.
      destruct (snoc_case w) as [->|(w' & x & ->)]; [congruence|]. rewrite map_app in P. cbn [map] in P. inversion P as [E1 E2|k v k' st sy R Hin L E1 E2]; [destruct (map (step_of a) w'); discriminate E2|]. subst k'.
      destruct L as [[L _]|[(E0 & _ & k0 & L)|[(L & _)|[(E0 & _ & k0 & L)|(L & _)]]]]; try (destruct k; discriminate L).
      + rewrite <- E0 in L. destruct k0; discriminate L.
      + rewrite <- E0 in L. destruct k0; discriminate L.
    - exists (id, al). split; [exact Hi|]. exists k, r. auto.
  Qed.
  Lemma prefix_atoms : forall al k r, Forall (atom_ok a) al -> map (code a) al = k ++ r -> exists x y, al = x ++ y /\ map (code a) x = k /\ Forall (atom_ok a) x.
  Proof.
    intros al k r O E. assert (Sp : forall l u v, map (code a) l = u ++ v -> exists x y, l = x ++ y /\ map (code a) x = u).
    { clear. induction l as [|z l IH]; intros u v E; [symmetry in E; apply app_eq_nil in E as [-> ->]; exists [], []; auto|]. destruct u as [|w u]; [exists [], (z :: l); auto|].
      cbn [map app] in E. injection E as E1 E2. apply IH in E2 as (x & y & -> & <-). exists (z :: x), y. cbn [app map]. rewrite E1. auto. }
    apply Sp in E as (x & y & -> & E). exists x, y. apply Forall_app in O as [O _]. auto.
  Qed.
  Lemma through_one : forall w q q' x, Forall sym_ok w -> In x s -> mpath nodes 0 (map (step_of a) w) q -> mpath nodes 0 (map (step_of a) w) q' -> through q x -> through q' x -> q = q'.
  Proof.
    intros w q q' [id al] Hw Hi P P' (k & r & Hk & E) (k' & r' & Hk' & E'). cbn [snd] in *. destruct (Hgood p s H _ _ Hi) as [O _].
    apply (prefix_atoms _ _ _ O) in E as (x & y & E & <- & Ox). apply (prefix_atoms _ _ _ O) in E' as (x' & y' & E' & <- & Ox').
    apply (mpath_reaches a Bk ks t T _ _ _ Hk) in P. apply (mpath_reaches a Bk ks t T _ _ _ Hk') in P'. apply (reaches_iff p s H) in P; auto. apply (reaches_iff p s H) in P'; auto.
    assert (x = x') by (apply (simple_unique al (Hs _ _ Hi) w x x' y y'); auto). subst x'. eapply (key_unique a Bk ks t); eauto.
  Qed.
  (** one symbol from a key to a key *)
  Lemma link_symbol : forall k v v' k' x, sym_ok x -> In v (step_of a x) -> In v' (step_of a x) -> link a k v k' -> link a k v' k' -> v = v'.
  Proof.
    intros k v v' k' x Hx Hv Hv' L L'. pose proof (anys a (st_alpha _ _ H)) as (N1 & N2 & N3).
    assert (Q : forall c, qmark c -> In c (step_of a x) -> x = SChar c).
    { intros c Qc Hin. assert (0 < c) by (destruct Qc as [<-|[<-|[<-|[]]]]; lia).
      apply (step_pos a (fun n => tc_neg a n (st_alpha _ _ H)) (fun n m => tc_inj a n m (st_alpha _ _ H)) ltac:(lia) ltac:(lia) c x); assumption. }
    assert (LN : forall (u y : list Z), y <> [] -> u ++ y <> u) by (intros u y Hy E; apply Hy; apply (app_inv_head u); now rewrite app_nil_r).
    assert (LL : forall (u : list Z) x1 x2 x3, u ++ [x1; x2] <> u ++ [x3]) by (intros u x1 x2 x3 E; apply app_inv_head in E; discriminate).
    destruct L as [[-> N]|[(-> & A & k0 & E)|[(-> & Qv)|[(-> & V & k0 & E)|(-> & N)]]]]; destruct L' as [[E' N']|[(E' & A' & k0' & E2)|[(E' & Qv')|[(E' & V' & k0' & E2)|(E' & N')]]]];
      try (exfalso; revert E'; apply LN; discriminate); try (symmetry in E'; exfalso; revert E'; apply LN; discriminate); try (exfalso; revert E'; apply LL); try (symmetry in E'; exfalso; revert E'; apply LL).
    - apply app_inv_head in E'. congruence.
    - apply app_inv_head in E'. congruence.
    - rewrite E in E2. now apply app_inj_tail in E2.
    - rewrite E in E2. apply app_inj_tail in E2 as [_ E2]. destruct A as [A|A]; destruct (anys_ne a (st_alpha _ _ H)) as (D1 & D2 & _); congruence.
    - apply app_inv_head in E'. congruence.
    - pose proof (Q _ Qv Hv). pose proof (Q _ Qv' Hv'). congruence.
    - rewrite E in E2. apply app_inj_tail in E2 as [_ E2]. destruct A' as [A|A]; destruct (anys_ne a (st_alpha _ _ H)) as (D1 & D2 & _); congruence.
    - congruence.
    - apply app_inv_head in E'. congruence.
  Qed.
  Lemma step_nodup : forall x, sym_ok x -> NoDup (step_of a x).
  Proof.
    intros x Hx. pose proof (anys a (st_alpha _ _ H)) as (N1 & N2 & N3). destruct x as [c|n]; cbn [step_of sym_ok] in *.
    - constructor; [intros [E|[]]; lia|]. constructor; [intros []|constructor].
    - destruct (Z.eqb_spec (tag_code a n) 0) as [E|E]; [constructor; [intros []|constructor]|]. constructor; [|constructor; [intros []|constructor]].
      intros [K|[]]. symmetry in K. apply (tc_inj a n [65; 78; 89; 95; 84; 65; 71] (st_alpha _ _ H) E) in K. subst. apply Hx. right. now left.
  Qed.
  Lemma follow_in : forall q x d, In d (follow nodes (step_of a x) q) <-> exists v, In v (step_of a x) /\ In (v, (d, 0)) (arcs_of t q).
  Proof.
    intros q x d. unfold follow. rewrite in_flat_map. split.
    - intros (v & Hv & K). apply in_map_iff in K as ([v' d'] & E & K). apply filter_In in K as [K Ev]. cbn in *. apply Z.eqb_eq in Ev. subst. exists v. split; [exact Hv|]. now apply (node_arc a Bk ks t T).
    - intros (v & Hv & K). apply (node_arc a Bk ks t T) in K. exists v. split; [exact Hv|]. apply in_map_iff. exists (v, d). split; [reflexivity|]. apply filter_In. split; [exact K|apply Z.eqb_refl].
  Qed.
  Lemma live_nodup : forall w, Forall sym_ok w -> NoDup (live nodes 0 (map (step_of a) w)).
  Proof.
    induction w as [|x w IH] using rev_ind; intros Hw; [constructor; [intros []|constructor]|]. apply Forall_app in Hw as [Hw Hx]. apply Forall_inv in Hx. specialize (IH Hw).
    unfold live in *. rewrite map_app, fold_left_app. cbn [map fold_left]. set (L := fold_left (live1 nodes) (map (step_of a) w) [0%nat]) in *.
    assert (HL : forall q, In q L <-> mpath nodes 0 (map (step_of a) w) q).
    { intros q. unfold L. rewrite live_paths_gen. split; [intros (n & [<-|[]] & M); exact M|intros M; exists 0%nat; split; [now left|exact M]]. }
    assert (Lk : forall q d, In q L -> In d (follow nodes (step_of a x) q) -> exists v k k', In v (step_of a x) /\ nth_error ks q = Some k /\ nth_error ks d = Some k' /\ link a k v k').
    { intros q d Hq Hd. apply follow_in in Hd as (v & Hv & Hd). apply HL in Hq. destruct (path_node p s ks t ft HB _ _ Hq) as (k & Hk). destruct (proj1 (tr_arcs _ _ _ _ T _ _ _ _ Hk) Hd) as (k' & Hk' & L'). exists v, k, k'. auto. }
    unfold live1. apply NoDup_flat; [exact IH| |].
    - intros q Hq. unfold follow. apply NoDup_flat.
      + now apply step_nodup.
      + intros v Hv. pose proof (tables_ok p s H Hc ks t ft HB) as Tb. unfold tables in Tb. rewrite Forall_forall in Tb.
        assert (Nq : NoDup (map fst (nth q nodes []))).
        { destruct (Nat.lt_ge_cases q (length nodes)) as [Lq|Lq]; [|rewrite nth_overflow by exact Lq; constructor]. destruct (Tb (nth q nodes [])) as (_ & X & _); [now apply nth_In|exact X]. }
        clear - Nq. induction (nth q nodes []) as [|[u d] l IHl]; cbn [filter map]; [constructor|]. cbn [map fst] in Nq. inversion Nq as [|? ? Hn Hd]; subst. cbn [fst]. destruct (Z.eqb_spec u v) as [->|]; [|auto].
        assert (E : filter (fun x => fst x =? v) l = []).
        { destruct (filter (fun x => fst x =? v) l) as [|[u' d'] r] eqn:E; [reflexivity|exfalso]. assert (K : In (u', d') (filter (fun x => fst x =? v) l)) by (rewrite E; now left).
          apply filter_In in K as [K1 K2]. apply Z.eqb_eq in K2. cbn in K2. subst. apply Hn. apply in_map_iff. exists (v, d'). auto. }
        rewrite E. cbn. constructor; [intros []|constructor].
      + intros v v' d Hv Hv' Hd Hd'. apply HL in Hq. destruct (path_node p s ks t ft HB _ _ Hq) as (k & Hk).
        assert (Lv : forall v, In d (map snd (filter (fun x => fst x =? v) (nth q nodes []))) -> exists k', nth_error ks d = Some k' /\ link a k v k').
        { intros u K. apply in_map_iff in K as ([u' d'] & E & K). apply filter_In in K as [K Eu]. cbn in *. apply Z.eqb_eq in Eu. subst. apply (node_arc a Bk ks t T) in K. now apply (tr_arcs _ _ _ _ T _ _ _ _ Hk) in K. }
        destruct (Lv _ Hd) as (k1 & K1 & L1). destruct (Lv _ Hd') as (k2 & K2 & L2). assert (k1 = k2) by congruence. subst k2. eapply link_symbol; eauto.
    - intros q q' d Hq Hq' Hd Hd'. destruct (Lk _ _ Hq Hd) as (v & k & k' & Hv & Hk & Hk' & L1). destruct (Lk _ _ Hq' Hd') as (v' & k2 & k2' & Hv' & Hk2 & Hk2' & L2). assert (k2' = k') by congruence. subst k2'.
      destruct (reaches_prefix a _ _ _ L1) as (y1 & E1). destruct (reaches_prefix a _ _ _ L2) as (y2 & E2).
      apply HL in Hq. apply HL in Hq'.
      destruct (tr_B _ _ _ _ T k') as [E0|(id & al & r & Hi & E)]; [eapply nth_error_In; eauto| |].
      + rewrite E0 in E1, E2. symmetry in E1, E2. apply app_eq_nil in E1 as [E1 _]. apply app_eq_nil in E2 as [E2 _]. rewrite E1 in Hk. rewrite E2 in Hk2. eapply (key_unique a Bk ks t); eauto.
      + apply (through_one w q q' (id, al) Hw Hi Hq Hq').
        * exists k, (y1 ++ r). split; [exact Hk|]. cbn [snd]. rewrite E, E1, <- app_assoc. reflexivity.
        * exists k2, (y2 ++ r). split; [exact Hk2|]. cbn [snd]. rewrite E, E2, <- app_assoc. reflexivity.
  Qed.
  Lemma live_bound : forall w, Forall sym_ok w -> (length (live nodes 0 (map (step_of a) w)) <= Nat.max 1 (length s))%nat.
  Proof.
    intros w Hw. destruct w as [|x w]; [apply Nat.le_max_l|]. set (w0 := x :: w) in *. assert (Hn : w0 <> []) by discriminate. clearbody w0. apply Nat.le_trans with (length s); [|lia].
    assert (HL : forall q, In q (live nodes 0 (map (step_of a) w0)) -> mpath nodes 0 (map (step_of a) w0) q).
    { intros q. unfold live. rewrite live_paths_gen. intros (n & [<-|[]] & M); exact M. }
    apply (pigeon (fun q x => In x s /\ through q x)).
    - now apply live_nodup.
    - intros q Hq. apply HL in Hq. destruct (through_some w0 q Hn Hq) as (x0 & Hx0 & Rx0). exists x0. auto.
    - intros q q' y Hq Hq' [Hy R] [_ R']. apply (through_one w0 q q' y Hw Hy (HL _ Hq) (HL _ Hq') R R').
  Qed.
  Lemma room_ok : forall lim, (2 * Nat.max 1 (length s) <= lim)%nat -> forall w, Forall sym_ok w -> room lim nodes [0%nat] (map (step_of a) w).
  Proof.
    intros lim Hl.
    assert (G : forall w u, Forall sym_ok u -> Forall sym_ok w -> room lim nodes (live nodes 0 (map (step_of a) u)) (map (step_of a) w)).
    { induction w as [|x w IH]; intros u Hu Hw; cbn [map room]; [exact I|]. apply Forall_cons_iff in Hw as [Hx Hw].
      assert (Hux : Forall sym_ok (u ++ [x])) by (apply Forall_app; auto).
      assert (E : live1 nodes (live nodes 0 (map (step_of a) u)) (step_of a x) = live nodes 0 (map (step_of a) (u ++ [x]))) by (unfold live; now rewrite map_app, fold_left_app).
      rewrite E. split; [|now apply IH]. pose proof (live_bound u Hu). pose proof (live_bound _ Hux). lia. }
    intros w Hw. exact (G w [] (Forall_nil _) Hw).
  Qed.
End Room.
