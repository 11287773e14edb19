(** AT&T files: the graph built from the lines. *)
From Verif Require Import Base CompressionModel SerialiserModel AlphabetModel AlphabetProofs TransducerModel TransducerSpec RelabelSpec RelabelProofs ComposeSpec AttModel AttSpec AttTextProofs AttProofs.

(** * Renumbering *)
Definition shift (o : Z) (l : line) : line :=
  match l with LArc s s' u v w => LArc (s + o) (s' + o) u v w | LFinal s w => LFinal (s + o) w end.
Fixpoint place (o : Z) (ms : list (list line)) : list line :=
  match ms with [] => [] | m :: ms => map (shift o) m ++ place (o + top_state m + 1) ms end.
Fixpoint starts (o : Z) (ms : list (list line)) : list Z :=
  match ms with [] => [] | m :: ms => start_of m + o :: starts (o + top_state m + 1) ms end.
Lemma top_cons : forall l m, top_state (l :: m) = Z.max (top_state [l]) (top_state m).
Proof.
  intros l m. unfold top_state. cbn [flat_map]. rewrite app_nil_r. assert (P : 0 <= fold_right Z.max 0 (flat_map line_states m)).
  { induction (flat_map line_states m); cbn [fold_right]; lia. }
  induction (line_states l); cbn [app fold_right]; lia.
Qed.
Lemma top_pos : forall m, 0 <= top_state m.
Proof. intros m. unfold top_state. induction (flat_map line_states m); cbn [fold_right]; lia. Qed.

Section Build.
  Context (u_ispunct u_isspace u_islower u_isupper : Z -> bool) (u_toupper u_tolower : Z -> Z).
  Notation upd_letters := (update_alphabet u_ispunct u_isspace u_islower u_isupper u_toupper u_tolower).
  Notation sym_code := (att_symbol_code u_ispunct u_isspace u_islower u_isupper u_toupper u_tolower).
  Notation single := (single_type u_ispunct).
  Notation arcs_ := (add_arcs u_ispunct).
  Notation transition := (add_transition u_ispunct u_isspace u_islower u_isupper u_toupper u_tolower).

  Definition word_char (c : Z) : bool := is_word_punct c || negb (u_ispunct c || u_isspace c).

  (** * Codes of a column *)
  Definition codes (a : alphabet) (u : list symbol) (ls : list Z) : Prop :=
    (u = [] /\ ls = [0]) \/ (u <> [] /\ Forall2 (as_symbol a) ls u /\ Forall (fun c => c <> 0) ls).
  Lemma codes_extends : forall a b u ls, extends a b -> codes a u ls -> codes b u ls.
  Proof.
    intros a b u ls E [H|(H1 & H2 & H3)]; [now left|right]. split; [exact H1|]. split; [|exact H3].
    clear H1 H3. induction H2; constructor; auto. eapply as_symbol_extends; eassumption.
  Qed.
  Lemma codes_nonempty : forall a u ls, codes a u ls -> ls <> [].
  Proof. intros a u ls [[_ ->]|(H & F & _)]; [discriminate|]. intros ->. inversion F; subst; congruence. Qed.
  (** where a letter comes from *)
  Definition from_char (c u : Z) : Prop :=
    word_char c = true /\ (u = c mod 65536 \/ (u_islower c = true /\ u = u_toupper c mod 65536) \/ (u_islower c = false /\ u_isupper c = true /\ u = u_tolower c mod 65536)).
  Lemma add_letter_in : forall c l u, In u (add_letter c l) <-> u = c mod 65536 \/ In u l.
  Proof.
    intros c l u. unfold add_letter. destruct (existsb _ l) eqn:E; [apply mem_in in E|cbn [In]; intuition congruence].
    split; [now right|]. intros [->|H]; assumption.
  Qed.
  Lemma upd_letters_in : forall c l u, In u (upd_letters c l) -> In u l \/ from_char c u.
  Proof.
    intros c l u. unfold update_alphabet, from_char. fold (word_char c). destruct (word_char c) eqn:W; [|now left].
    destruct (u_islower c) eqn:LO; [|destruct (u_isupper c) eqn:UP]; rewrite ?add_letter_in; intuition auto.
  Qed.
  Lemma upd_letters_incl : forall c l, incl l (upd_letters c l).
  Proof.
    intros c l u H. unfold update_alphabet. fold (word_char c). destruct (word_char c); [|exact H].
    destruct (u_islower c); [|destruct (u_isupper c)]; rewrite ?add_letter_in; auto.
  Qed.
  Lemma upd_letters_has : forall c l, word_char c = true -> In (c mod 65536) (upd_letters c l).
  Proof.
    intros c l H. unfold update_alphabet. fold (word_char c). rewrite H.
    destruct (u_islower c); [|destruct (u_isupper c)]; rewrite ?add_letter_in; auto.
  Qed.
  Lemma upd_letters_from : forall c l u, from_char c u -> In u (upd_letters c l).
  Proof.
    intros c l u [W H]. unfold update_alphabet. fold (word_char c). rewrite W.
    destruct H as [->|[[E ->]|(E1 & E2 & ->)]]; [|rewrite E|rewrite E1, E2].
    - destruct (u_islower c); [|destruct (u_isupper c)]; rewrite ?add_letter_in; auto.
    - rewrite ?add_letter_in; auto.
    - rewrite ?add_letter_in; auto.
  Qed.
  Lemma fold_letters : forall cs l,
    incl l (fold_left (fun l c => upd_letters c l) cs l)
    /\ (forall c v, In c cs -> from_char c v -> In v (fold_left (fun l c => upd_letters c l) cs l))
    /\ (forall u, In u (fold_left (fun l c => upd_letters c l) cs l) -> In u l \/ exists c, In c cs /\ from_char c u).
  Proof.
    induction cs as [|d cs IH]; intros l; cbn [fold_left].
    - split; [apply incl_refl|]. split; [intros c v []|now left].
    - destruct (IH (upd_letters d l)) as (H1 & H2 & H3). split; [|split].
      + eapply incl_tran; [apply upd_letters_incl|exact H1].
      + intros c v [<-|Hc] W; [apply H1, upd_letters_from, W|eauto].
      + intros u Hu. apply H3 in Hu as [Hu|(c & Hc & F)]; [|right; exists c; split; [now right|exact F]].
        apply upd_letters_in in Hu as [Hu|Hu]; [now left|right; exists d; split; [now left|exact Hu]].
  Qed.

  Lemma sym_code_ok : forall hfst s u x, column hfst s u -> alph_inv0 (x_alph x) ->
    exists ls x', sym_code (convert_hfst hfst s) x = (ls, x') /\ codes (x_alph x') u ls
      /\ alph_inv0 (x_alph x') /\ extends (x_alph x) (x_alph x') /\ incl (x_letters x) (x_letters x')
      /\ x_graph x' = x_graph x /\ x_finals x' = x_finals x /\ x_phantom x' = x_phantom x
      /\ (forall c, In c ls -> 0 < c -> word_char c = true -> In (c mod 65536) (x_letters x'))
      /\ (forall v, In v (x_letters x') -> In v (x_letters x) \/ exists c, In (SChar c) u /\ from_char c v)
      /\ (forall c v, In (SChar c) u -> from_char c v -> In v (x_letters x')).
  Proof.
    intros hfst s u x H I. destruct (convert_column hfst s u H) as [(-> & ->)|[(T & ->)|(cs & N & F & E & -> & T)]].
    - exists [0], x. split; [reflexivity|]. split; [left; auto|]. split; [exact I|]. split; [apply extends_refl|].
      split; [apply incl_refl|]. do 3 (split; [reflexivity|]). split; [|split; [now left|intros c v []]]. intros c [<-|[]] K. lia.
    - set (n := convert_hfst hfst s) in *. destruct n as [|c r] eqn:En.
      { destruct T as (q & Q). discriminate Q. }
      assert (TT := proj2 (tag_test c r) T). cbn [att_symbol_code]. rewrite TT.
      destruct (include_code (c :: r) (x_alph x) (proj1 I)) as [K1 K2].
      eexists _, _. split; [reflexivity|]. cbn [x_alph x_letters x_graph x_finals x_phantom].
      split. { right. split; [discriminate|]. split; [repeat constructor; assumption|]. repeat constructor. lia. }
      split. { eapply inv0_extends; [exact I|apply include_inv, I|apply include_extends, I]. }
      split; [apply include_extends, I|]. split; [apply incl_refl|]. do 3 (split; [reflexivity|]).
      split; [|split; [now left|]]. { intros d [<-|[]] P. lia. } intros d v [K|[]]. discriminate K.
    - rewrite E in *. clear E.
      destruct (flat_map utf16 cs) as [|c r] eqn:En.
      { destruct cs as [|c cs]; [congruence|]. cbn [flat_map] in En. unfold utf16 in En. destruct (c <? 65536); discriminate En. }
      cbn [att_symbol_code]. destruct ((2 <=? length (c :: r))%nat && (c =? 60) && (last (c :: r) 0 =? 62)) eqn:TT.
      { exfalso. apply T. now apply tag_test. }
      rewrite <- En, utf16_split by exact F. destruct (fold_letters cs (x_letters x)) as (H1 & H2 & H3).
      eexists _, _. split; [reflexivity|]. cbn [x_alph x_letters x_graph x_finals x_phantom].
      split. { right. split; [destruct cs; [congruence|discriminate]|]. split.
        - clear -F. induction F as [|c cs Hc F IH]; constructor; [|exact IH]. unfold character in Hc. cbn. lia.
        - eapply Forall_impl; [|exact F]. unfold character. intros d Hd. lia. }
      split; [exact I|]. split; [apply extends_refl|]. split; [exact H1|]. do 3 (split; [reflexivity|]).
      split; [intros d Hd _ W; apply (H2 d); [exact Hd|]; split; [exact W|now left]|]. split.
      + intros v Hv. apply H3 in Hv as [Hv|(d & Hd & Hf)]; [now left|right]. exists d. split; [now apply in_map|exact Hf].
      + intros d v Hd Hf. apply in_map_iff in Hd as (e & [= ->] & Hd). now apply (H2 d).
  Qed.

  (** * Types *)
  Definition typed (letters : list Z) (c ty : Z) : Prop :=
    (0 < c -> word_char c = true -> Z.land ty 1 = 1)
    /\ (Z.land ty 1 = 1 -> 0 < c /\ In (c mod 65536) letters)
    /\ (Z.land ty 2 = 2 <-> 0 < c /\ u_ispunct c = true)
    /\ (c <= 0 -> ty = 0).
  Lemma typed_incl : forall l l' c ty, incl l l' -> typed l c ty -> typed l' c ty.
  Proof. intros l l' c ty I (H1 & H2 & H3 & H4). repeat split; auto; try (now apply H3); try (apply H2; assumption). apply I. now apply H2. Qed.
  Lemma single_ok_ : forall tag x l r, decode tag (x_alph x) = Ok (l, r) ->
    (0 < l -> word_char l = true -> In (l mod 65536) (x_letters x)) ->
    exists ty, single tag x = Ok ty /\ typed (x_letters x) l ty.
  Proof.
    intros tag x l r D W. unfold single_type. rewrite D. cbn [obind fst].
    destruct (0 <? l) eqn:P.
    - eexists. split; [reflexivity|]. destruct (existsb _ (x_letters x)) eqn:E.
      + apply mem_in in E. destruct (u_ispunct l) eqn:U; cbn [Z.lor]; unfold typed; repeat split; intros; try lia; try easy;
          match goal with H : _ /\ _ |- _ => destruct H; congruence end.
      + apply mem_out in E. destruct (u_ispunct l) eqn:U; cbn [Z.lor]; unfold typed; repeat split; intros; try lia; try easy;
          try (match goal with H : _ /\ _ |- _ => destruct H; congruence end);
          exfalso; apply E; apply W; auto; lia.
    - exists 0. split; [reflexivity|]. unfold typed. repeat split; intros; try lia; try easy;
        match goal with H : _ /\ _ |- _ => destruct H; lia end.
  Qed.

  (** * Chains of arcs *)
  Record chain := mkC { c_src : Z; c_to : Z; c_w : Z; c_ls : list Z; c_rs : list Z; c_ph : Z }.
  Definition c_len (c : chain) : nat := Nat.max (length (c_ls c)) (length (c_rs c)).
  Definition c_node (c : chain) (i : nat) : Z := match i with O => c_src c | S _ => - (c_ph c + Z.of_nat i) end.
  Definition c_next (c : chain) (i : nat) : Z := if (S i =? c_len c)%nat then c_to c else - (c_ph c + Z.of_nat (S i)).
  Definition chain_arc (letters : list Z) (a : alphabet) (c : chain) (i : nat) (t : transduction) : Prop :=
    tr_to t = c_next c i /\ decode (tr_tag t) a = Ok (nth i (c_ls c) 0, nth i (c_rs c) 0)
    /\ tr_wt t = (if (S i =? c_len c)%nat then c_w c else 0) /\ typed letters (nth i (c_ls c) 0) (tr_type t).
  Lemma chain_arc_more : forall l l' a a' c i t, incl l l' -> extends a a' -> chain_arc l a c i t -> chain_arc l' a' c i t.
  Proof.
    intros l l' a a' c i t I E (H1 & H2 & H3 & H4). split; [exact H1|]. split; [eapply decode_extends; eassumption|].
    split; [exact H3|]. eapply typed_incl; eassumption.
  Qed.
  Definition tail_chain (c : chain) : chain := mkC (- (c_ph c + 1)) (c_to c) (c_w c) (tl (c_ls c)) (tl (c_rs c)) (c_ph c + 1).
  Lemma tail_len : forall c, c_len (tail_chain c) = pred (c_len c).
  Proof. intros [s t w ls rs p]. unfold c_len, tail_chain. cbn. destruct ls, rs; cbn; lia. Qed.
  Lemma tail_node : forall c i, c_node (tail_chain c) i = c_node c (S i).
  Proof. intros c [|i]; cbn [c_node tail_chain c_src c_ph]; lia. Qed.
  Lemma tail_arc : forall l a c i t, (1 < c_len c)%nat -> chain_arc l a (tail_chain c) i t -> chain_arc l a c (S i) t.
  Proof.
    intros l a c i t L (H1 & H2 & H3 & H4). unfold chain_arc, c_next in *. rewrite tail_len in *. cbn [tail_chain c_to c_w c_ls c_rs c_ph] in *.
    assert (N : forall l : list Z, nth i (tl l) 0 = nth (S i) l 0) by (intros [|? ?]; [destruct i; reflexivity|reflexivity]).
    rewrite !N in *. replace (S (S i) =? c_len c)%nat with (S i =? pred (c_len c))%nat by lia.
    split; [|auto]. rewrite H1. destruct (S i =? _)%nat; lia.
  Qed.

  Lemma garc_push : forall src t x n t', garc (x_graph (push_arc src t x)) n t' <-> garc (x_graph x) n t' \/ (n = src /\ t' = t).
  Proof.
    intros src t x n t'. unfold garc, push_arc, with_graph. cbn [x_graph]. rewrite node_set. destruct (n =? src) eqn:E.
    - apply Z.eqb_eq in E as ->. rewrite in_app_iff. cbn [In]. intuition congruence.
    - apply Z.eqb_neq in E. intuition congruence.
  Qed.

  Lemma add_arcs_ok : forall n x c, alph_inv0 (x_alph x) -> n = c_len c -> (1 <= n)%nat -> c_ph c = x_phantom x ->
    (forall k, In k (c_ls c) -> 0 < k -> word_char k = true -> In (k mod 65536) (x_letters x)) ->
    exists x', arcs_ n (c_src c) (c_to c) (c_w c) (c_ls c) (c_rs c) x = Ok x'
      /\ alph_inv0 (x_alph x') /\ extends (x_alph x) (x_alph x')
      /\ x_letters x' = x_letters x /\ x_finals x' = x_finals x /\ x_phantom x' = x_phantom x + Z.of_nat n - 1
      /\ (forall m t, garc (x_graph x') m t -> garc (x_graph x) m t \/ exists i, (i < n)%nat /\ m = c_node c i /\ chain_arc (x_letters x) (x_alph x') c i t)
      /\ (forall m t, garc (x_graph x) m t -> garc (x_graph x') m t)
      /\ (forall i, (i < n)%nat -> exists t, garc (x_graph x') (c_node c i) t /\ chain_arc (x_letters x) (x_alph x') c i t).
  Proof.
    induction n as [|n IH]; intros x c I En L Eph W; [lia|]. cbn [add_arcs].
    assert (D := pair_code_decode (hd 0 (c_ls c), hd 0 (c_rs c)) (x_alph x) (proj1 I)).
    assert (I1 := pair_inv (hd 0 (c_ls c), hd 0 (c_rs c)) (x_alph x) (proj1 I)).
    assert (X1 := pair_extends (hd 0 (c_ls c), hd 0 (c_rs c)) (x_alph x) (proj1 I)).
    destruct (pair_code (hd 0 (c_ls c), hd 0 (c_rs c)) (x_alph x)) as [tag a]. cbn [fst snd] in D, I1, X1.
    assert (I1' : alph_inv0 a) by (eapply inv0_extends; eassumption).
    set (last_ := match n with O => true | S _ => false end).
    set (phantom := if last_ then x_phantom x else x_phantom x + 1).
    set (x1 := mkAtt (x_graph x) (x_finals x) a (x_letters x) phantom).
    destruct (single_ok_ tag x1 (hd 0 (c_ls c)) (hd 0 (c_rs c)) D) as (ty & Ety & TY).
    { cbn [x1 x_letters]. destruct (c_ls c) as [|k ls] eqn:El; [cbn; lia|]. cbn [hd]. intros. apply W; auto. now left. }
    rewrite Ety. cbn [obind].
    set (t0 := mkTr (if last_ then c_to c else - phantom) tag (if last_ then c_w c else 0) ty).
    assert (Nx : (if last_ then c_to c else - phantom) = c_next c 0).
    { unfold c_next, phantom, last_. rewrite <- En. destruct n; cbn [Nat.eqb]; lia. }
    assert (A0 : chain_arc (x_letters x) a c 0 t0).
    { unfold chain_arc, t0. cbn [tr_to tr_tag tr_wt tr_type]. split; [exact Nx|]. split.
      - rewrite D. f_equal. destruct (c_ls c), (c_rs c); reflexivity.
      - split; [unfold last_; rewrite <- En; destruct n; reflexivity|]. cbn [x1 x_letters] in TY. destruct (c_ls c); exact TY. }
    destruct n as [|n].
    - cbn [add_arcs]. eexists. split; [reflexivity|]. cbn [push_arc with_graph x_alph x_letters x_finals x_phantom x1].
      split; [exact I1'|]. split; [exact X1|]. do 2 (split; [reflexivity|]). split; [unfold phantom, last_; lia|]. split; [|split].
      + intros m t H. change (garc (x_graph (push_arc (c_src c) t0 x1)) m t) in H. apply garc_push in H as [H|[-> ->]]; [now left|].
        right. exists 0%nat. split; [lia|]. split; [reflexivity|exact A0].
      + intros m t H. change (garc (x_graph (push_arc (c_src c) t0 x1)) m t). apply garc_push. now left.
      + intros i Hi. assert (i = 0%nat) by lia. subst i. exists t0. split; [|exact A0].
        change (garc (x_graph (push_arc (c_src c) t0 x1)) (c_node c 0) t0). apply garc_push. now right.
    - assert (L1 : (1 < c_len c)%nat) by lia.
      destruct (IH (push_arc (c_src c) t0 x1) (tail_chain c)) as (x' & E & J1 & J2 & J3 & J4 & J5 & J6 & J7 & J8).
      + exact I1'.
      + rewrite tail_len. lia.
      + lia.
      + cbn [tail_chain c_ph push_arc with_graph x_phantom x1]. unfold phantom, last_. lia.
      + cbn [tail_chain c_ls push_arc with_graph x_letters x1]. intros k Hk. apply W. destruct (c_ls c); [destruct Hk|now right].
      + cbn [push_arc with_graph x_alph x_letters x_finals x_phantom x1] in J2, J3, J4, J5, J6, J8.
        exists x'. split. { rewrite <- E. cbn [tail_chain c_src c_to c_w c_ls c_rs]. unfold phantom, last_. cbn zeta. rewrite Eph. reflexivity. }
        split; [exact J1|]. split; [eapply extends_trans; eassumption|]. split; [exact J3|]. split; [exact J4|].
        split; [rewrite J5; unfold phantom, last_; lia|]. split; [|split].
        * intros m t H. apply J6 in H as [H|(i & Hi & -> & H)].
          -- change (garc (x_graph (push_arc (c_src c) t0 x1)) m t) in H. apply garc_push in H as [H|[-> ->]]; [now left|].
             right. exists 0%nat. split; [lia|]. split; [reflexivity|]. eapply chain_arc_more; [apply incl_refl|exact J2|exact A0].
          -- right. exists (S i). split; [lia|]. split; [apply tail_node|]. now apply tail_arc.
        * intros m t H. apply J7. change (garc (x_graph (push_arc (c_src c) t0 x1)) m t). apply garc_push. now left.
        * intros [|i] Hi.
          -- exists t0. split; [|eapply chain_arc_more; [apply incl_refl|exact J2|exact A0]]. apply J7.
             change (garc (x_graph (push_arc (c_src c) t0 x1)) (c_node c 0) t0). apply garc_push. now right.
          -- destruct (J8 i ltac:(lia)) as (t & G & A). exists t. rewrite <- tail_node. split; [exact G|now apply tail_arc].
  Qed.

  (** * The invariant *)
  Definition chain_line (rl : bool) (a : alphabet) (c : chain) (s s' : Z) (u l : list symbol) (w : Z) : Prop :=
    c_src c = s /\ c_to c = s' /\ c_w c = w /\ codes a (if rl then l else u) (c_ls c) /\ codes a (if rl then u else l) (c_rs c).
  Definition start_chain (c : chain) (s : Z) : Prop := c_src c = 0 /\ c_to c = s /\ c_w c = 0 /\ c_ls c = [0] /\ c_rs c = [0].
  Record built (rl : bool) (x : att) (C : list chain) (L : list line) (S : list Z) : Prop := {
    b_inv : alph_inv0 (x_alph x);
    b_arc1 : forall m t, garc (x_graph x) m t -> exists c i, In c C /\ (i < c_len c)%nat /\ m = c_node c i /\ chain_arc (x_letters x) (x_alph x) c i t;
    b_arc2 : forall c i, In c C -> (i < c_len c)%nat -> exists t, garc (x_graph x) (c_node c i) t /\ chain_arc (x_letters x) (x_alph x) c i t;
    b_phantom : 0 <= x_phantom x;
    b_chain : forall c, In c C -> 0 <= c_ph c /\ (1 <= c_len c)%nat /\ c_ph c + Z.of_nat (c_len c) - 1 <= x_phantom x /\ 0 <= c_src c /\ 1 <= c_to c;
    b_unique : forall c c' i i', In c C -> In c' C -> (1 <= i < c_len c)%nat -> (1 <= i' < c_len c')%nat ->
      c_ph c + Z.of_nat i = c_ph c' + Z.of_nat i' -> c = c' /\ i = i';
    b_line : forall s s' u l w, In (LArc s s' u l w) L -> 1 <= s /\ exists c, In c C /\ chain_line rl (x_alph x) c s s' u l w;
    b_origin : forall c, In c C -> (exists s s' u l w, In (LArc s s' u l w) L /\ 1 <= s /\ chain_line rl (x_alph x) c s s' u l w) \/ (exists s, In s S /\ start_chain c s);
    b_start : forall s, In s S -> exists c, In c C /\ start_chain c s;
    b_finals : forall s f, zfind s (x_finals x) = Some f <-> final_line L s f;
    b_letters : forall v, In v (x_letters x) -> exists l c, In l L /\ In (SChar c) (line_chars l) /\ from_char c v;
    b_known : forall l c v, In l L -> In (SChar c) (line_chars l) -> from_char c v -> In v (x_letters x)
  }.
  Lemma chain_line_extends : forall rl a b c s s' u l w, extends a b -> chain_line rl a c s s' u l w -> chain_line rl b c s s' u l w.
  Proof. intros rl a b c s s' u l w E (H1 & H2 & H3 & H4 & H5). repeat (split; [assumption|]). split; eapply codes_extends; eassumption. Qed.

  (** A chain is added. *)
  Lemma built_add : forall rl x C L S x1 x' c l S', built rl x C L S ->
    x_graph x1 = x_graph x -> x_phantom x1 = x_phantom x -> x_finals x1 = x_finals x ->
    extends (x_alph x) (x_alph x1) -> incl (x_letters x) (x_letters x1) ->
    (forall v, In v (x_letters x1) -> In v (x_letters x) \/ exists k d, In k l /\ In (SChar d) (line_chars k) /\ from_char d v) ->
    (forall k d v, In k l -> In (SChar d) (line_chars k) -> from_char d v -> In v (x_letters x1)) ->
    alph_inv0 (x_alph x') -> extends (x_alph x1) (x_alph x') -> x_letters x' = x_letters x1 -> x_finals x' = x_finals x1 ->
    x_phantom x' = x_phantom x1 + Z.of_nat (c_len c) - 1 ->
    (forall m t, garc (x_graph x') m t -> garc (x_graph x1) m t \/ exists i, (i < c_len c)%nat /\ m = c_node c i /\ chain_arc (x_letters x1) (x_alph x') c i t) ->
    (forall m t, garc (x_graph x1) m t -> garc (x_graph x') m t) ->
    (forall i, (i < c_len c)%nat -> exists t, garc (x_graph x') (c_node c i) t /\ chain_arc (x_letters x1) (x_alph x') c i t) ->
    c_ph c = x_phantom x -> (1 <= c_len c)%nat -> 0 <= c_src c -> 1 <= c_to c ->
    ((exists s s' u v w, l = [LArc s s' u v w] /\ 1 <= s /\ chain_line rl (x_alph x') c s s' u v w /\ S' = S)
     \/ (exists s, l = [] /\ start_chain c s /\ S' = S ++ [s])) ->
    built rl x' (C ++ [c]) (L ++ l) S'.
  Proof.
    intros rl x C L S x1 x' c l S' B G1 P1 F1 X1 IL OL OK I' X' EL EF EP J6 J7 J8 Eph Lc Sc Tc O.
    assert (X : extends (x_alph x) (x_alph x')) by (eapply extends_trans; eassumption).
    assert (IL' : incl (x_letters x) (x_letters x')) by now rewrite EL.
    assert (FL : forall s f, final_line (L ++ l) s f <-> final_line L s f).
    { assert (NF : forall k, In k l -> forall s f, k <> LFinal s f).
      { destruct O as [(s & s' & u & v & w & -> & _)|(s & -> & _)]; [intros k [<-|[]]; discriminate|intros k []]. }
      clear - NF. intros s f. induction L as [|k L IH]; cbn [app].
      - split; intros H; [|inversion H]. exfalso. induction l as [|k l IHl]; [inversion H|]. inversion H as [? ? ? E|? ? ? ? ? H']; subst.
        + now apply (NF (LFinal s f) (or_introl eq_refl) s f).
        + apply IHl; [|exact H']. intros j Hj. apply NF. now right.
      - split; intros H; inversion H; subst; constructor; auto; now apply IH. }
    destruct B as [B1 B2 B3 B4 B5 B6 B7 B8 B9 B10 B11 B12].
    assert (OLDC : forall d, In d C -> c_ph d + Z.of_nat (c_len d) - 1 <= x_phantom x) by (intros d Hd; apply B5; exact Hd).
    constructor.
    - exact I'.
    - intros m t H. apply J6 in H as [H|(i & Hi & -> & H)].
      + rewrite G1 in H. apply B2 in H as (d & i & Hd & Hi & -> & H). exists d, i. split; [apply in_or_app; now left|]. split; [exact Hi|].
        split; [reflexivity|]. eapply chain_arc_more; [exact IL'|exact X|exact H].
      + exists c, i. split; [apply in_or_app; right; now left|]. split; [exact Hi|]. split; [reflexivity|]. now rewrite EL.
    - intros d i Hd Hi. apply in_app_or in Hd as [Hd|[<-|[]]].
      + destruct (B3 d i Hd Hi) as (t & H1 & H2). exists t. split; [apply J7; now rewrite G1|]. eapply chain_arc_more; [exact IL'|exact X|exact H2].
      + destruct (J8 i Hi) as (t & H1 & H2). exists t. rewrite EL. auto.
    - lia.
    - intros d Hd. apply in_app_or in Hd as [Hd|[<-|[]]].
      + destruct (B5 d Hd) as (K1 & K2 & K3 & K4 & K5). repeat split; auto. lia.
      + repeat split; lia.
    - intros d d' i i' Hd Hd' Hi Hi' E. apply in_app_or in Hd as [Hd|[<-|[]]]; apply in_app_or in Hd' as [Hd'|[<-|[]]].
      + now apply B6.
      + specialize (OLDC d Hd). lia.
      + specialize (OLDC d' Hd'). lia.
      + split; [reflexivity|lia].
    - intros s s' u v w H. apply in_app_or in H as [H|H].
      + destruct (B7 _ _ _ _ _ H) as (K & d & Hd & Hc). split; [exact K|]. exists d. split; [apply in_or_app; now left|]. eapply chain_line_extends; eassumption.
      + destruct O as [(s0 & s0' & u0 & v0 & w0 & -> & K & H1 & _)|(s0 & -> & _)]; [|destruct H]. destruct H as [E|[]]. injection E as -> -> -> -> ->.
        split; [exact K|]. exists c. split; [apply in_or_app; right; now left|exact H1].
    - intros d Hd. apply in_app_or in Hd as [Hd|[<-|[]]].
      + destruct (B8 d Hd) as [(s & s' & u & v & w & H1 & K & H2)|(s & H1 & H2)].
        * left. exists s, s', u, v, w. split; [apply in_or_app; now left|]. split; [exact K|]. eapply chain_line_extends; eassumption.
        * right. exists s. split; [|exact H2]. destruct O as [(? & ? & ? & ? & ? & _ & _ & _ & ->)|(? & _ & _ & ->)]; [exact H1|apply in_or_app; now left].
      + destruct O as [(s & s' & u & v & w & -> & K & H & _)|(s & -> & H & ->)].
        * left. exists s, s', u, v, w. split; [apply in_or_app; right; now left|auto].
        * right. exists s. split; [apply in_or_app; right; now left|exact H].
    - intros s Hs.
      assert (K : In s S \/ start_chain c s).
      { destruct O as [(? & ? & ? & ? & ? & _ & _ & _ & ->)|(q & _ & H & ->)]; [now left|]. apply in_app_or in Hs as [Hs|[<-|[]]]; auto. }
      destruct K as [K|K].
      + destruct (B9 s K) as (d & Hd & H). exists d. split; [apply in_or_app; now left|exact H].
      + exists c. split; [apply in_or_app; right; now left|exact K].
    - intros s f. rewrite EF, F1, FL. apply B10.
    - intros v Hv. rewrite EL in Hv. apply OL in Hv as [Hv|(k & d & H1 & H2 & H3)].
      + destruct (B11 v Hv) as (k & d & H1 & H2 & H3). exists k, d. split; [apply in_or_app; now left|auto].
      + exists k, d. split; [apply in_or_app; now right|auto].
    - intros k d v Hk Hd Hf. rewrite EL. apply in_app_or in Hk as [Hk|Hk]; [apply IL; now apply (B12 k d)|now apply (OK k d)].
  Qed.

  Lemma transition_ok : forall hfst rl x C L S s s' c2 c3 u l w, built rl x C L S -> 1 <= s -> 1 <= s' ->
    column hfst c2 u -> column hfst c3 l ->
    exists x' c, transition s s' (convert_hfst hfst (if rl then c3 else c2)) (convert_hfst hfst (if rl then c2 else c3)) w x = Ok x'
      /\ built rl x' (C ++ [c]) (L ++ [LArc s s' u l w]) S.
  Proof.
    intros hfst rl x C L S s s' c2 c3 u l w B Hs Hs' H2 H3.
    assert (HU : column hfst (if rl then c3 else c2) (if rl then l else u)) by (destruct rl; assumption).
    assert (HL : column hfst (if rl then c2 else c3) (if rl then u else l)) by (destruct rl; assumption).
    unfold add_transition.
    destruct (sym_code_ok hfst _ _ x HU (b_inv _ _ _ _ _ B)) as (ls & x1 & E1 & C1 & I1 & X1 & IL1 & G1 & F1 & P1 & W1 & O1 & N1). rewrite E1.
    destruct (sym_code_ok hfst _ _ x1 HL I1) as (rs & x2 & E2 & C2 & I2 & X2 & IL2 & G2 & F2 & P2 & W2 & O2 & N2). rewrite E2.
    set (c := mkC s s' w ls rs (x_phantom x2)).
    assert (NL := codes_nonempty _ _ _ C1).
    assert (Lc : (1 <= c_len c)%nat) by (unfold c_len, c; cbn [c_ls c_rs]; destruct ls; [congruence|cbn [length]; lia]).
    destruct (add_arcs_ok (c_len c) x2 c I2 eq_refl Lc eq_refl) as (x' & E & J1 & J2 & J3 & J4 & J5 & J6 & J7 & J8).
    { cbn [c c_ls]. intros k Hk P Wk. apply IL2. now apply W1. }
    exists x', c. split; [exact E|].
    eapply (built_add rl x C L S x2 x' c [LArc s s' u l w] S); try eassumption; try congruence.
    - eapply extends_trans; eassumption.
    - eapply incl_tran; eassumption.
    - intros v Hv. apply O2 in Hv as [Hv|(d & H & K)].
      + apply O1 in Hv as [Hv|(d & H & K)]; [now left|right]. exists (LArc s s' u l w), d. split; [now left|]. split; [|exact K].
        cbn [line_chars]. apply in_or_app. destruct rl; auto.
      + right. exists (LArc s s' u l w), d. split; [now left|]. split; [|exact K]. cbn [line_chars]. apply in_or_app. destruct rl; auto.
    - intros k d v [<-|[]] Hd Hf. cbn [line_chars] in Hd. apply in_app_or in Hd as [Hd|Hd]; destruct rl; eauto.
    - cbn [c c_ph]. congruence.
    - cbn [c c_src]. lia.
    - left. exists s, s', u, l, w. split; [reflexivity|]. split; [exact Hs|]. split; [|reflexivity].
      unfold chain_line, c. cbn [c_src c_to c_w c_ls c_rs]. repeat (split; [reflexivity|]).
      split; (eapply codes_extends; [|eassumption]); [eapply extends_trans; eassumption|exact J2].
  Qed.

  (** The first line of a transducer. *)
  Lemma start_ok : forall rl x C L S from, built rl x C L S -> 1 <= from ->
    exists c, built rl (push_arc 0 (mkTr from 0 0 0) x) (C ++ [c]) L (S ++ [from]).
  Proof.
    intros rl x C L S from B Hf. set (c := mkC 0 from 0 [0] [0] (x_phantom x)). exists c.
    rewrite <- (app_nil_r L). assert (I := b_inv _ _ _ _ _ B).
    assert (A0 : chain_arc (x_letters x) (x_alph x) c 0 (mkTr from 0 0 0)).
    { split; [reflexivity|]. split; [|split; [reflexivity|]].
      - cbn [tr_tag]. destruct I as [_ K]. unfold decode. cbn [Z.ltb]. change (Z.to_nat 0) with 0%nat. now rewrite K.
      - cbn. unfold typed. repeat split; intros; try lia; try easy; match goal with H : _ /\ _ |- _ => destruct H; lia end. }
    eapply (built_add rl x C L S x _ c [] (S ++ [from])); cbn [push_arc with_graph x_alph x_letters x_finals x_phantom]; auto; try apply extends_refl; try apply incl_refl; try (intros ? ? ? []).
    - cbn. lia.
    - intros m t H. change (garc (x_graph (push_arc 0 (mkTr from 0 0 0) x)) m t) in H. apply garc_push in H as [H|[-> ->]]; [now left|].
      right. exists 0%nat. split; [cbn; lia|]. split; [reflexivity|exact A0].
    - intros m t H. change (garc (x_graph (push_arc 0 (mkTr from 0 0 0) x)) m t). apply garc_push. now left.
    - intros i Hi. assert (i = 0%nat) by (cbn in Hi; lia). subst i. exists (mkTr from 0 0 0). split; [|exact A0].
      change (garc (x_graph (push_arc 0 (mkTr from 0 0 0) x)) (c_node c 0) (mkTr from 0 0 0)). apply garc_push. now right.
    - cbn. lia.
    - right. exists from. split; [reflexivity|]. split; [|reflexivity]. repeat split.
  Qed.

  (** A final state. *)
  Lemma final_app : forall L s f, final_line L s f -> forall M, final_line (L ++ M) s f.
  Proof. intros L s f H. induction H; intros M; cbn [app]; constructor; auto. Qed.
  Lemma final_snoc : forall L s f k w, final_line (L ++ [LFinal k w]) s f <->
    final_line L s f \/ (s = k /\ f = w /\ forall f', ~ final_line L s f').
  Proof.
    intros L s f k w. split.
    - induction L as [|l L IH]; cbn [app]; intros H.
      + inversion H as [? ? ? E|? ? ? ? ? H']; subst; [|inversion H']. right. split; [reflexivity|]. split; [reflexivity|]. intros f' K. inversion K.
      + inversion H as [? ? ? E|? ? ? ? N H']; subst; [left; constructor|]. apply IH in H' as [H'|(-> & -> & H')]; [left; now constructor|].
        right. split; [reflexivity|]. split; [reflexivity|]. intros f' K. inversion K; subst; [now apply (N f')|]. now apply (H' f').
    - intros [H|(-> & -> & N)]; [now apply final_app|]. induction L as [|l L IH]; cbn [app]; [constructor|].
      constructor.
      + intros f' ->. apply (N f'). constructor.
      + apply IH. intros f' K. destruct l as [? ? ? ? ?|q g].
        * apply (N f'). constructor; [discriminate|exact K].
        * destruct (Z.eq_dec q k) as [->|D]; [apply (N g); constructor|]. apply (N f'). constructor; [congruence|exact K].
  Qed.
  Lemma final_ok : forall rl x C L S s w, built rl x C L S ->
    built rl (match zfind s (x_finals x) with
              | Some _ => x
              | None => mkAtt (x_graph x) (x_finals x ++ [(s, w)]) (x_alph x) (x_letters x) (x_phantom x)
              end) C (L ++ [LFinal s w]) S.
  Proof.
    intros rl x C L S s w [B1 B2 B3 B4 B5 B6 B7 B8 B9 B10 B11 B12].
    assert (K1 : forall q q' u l v, In (LArc q q' u l v) (L ++ [LFinal s w]) -> In (LArc q q' u l v) L).
    { intros q q' u l v H. apply in_app_or in H as [H|[H|[]]]; [exact H|discriminate]. }
    assert (K2 : forall c, In c C -> (exists q q' u l v, In (LArc q q' u l v) (L ++ [LFinal s w]) /\ 1 <= q /\ chain_line rl (x_alph x) c q q' u l v) \/ (exists q, In q S /\ start_chain c q)).
    { intros c Hc. destruct (B8 c Hc) as [(q & q' & u & l & v & H1 & H2 & H3)|H]; [|now right]. left. exists q, q', u, l, v. split; [apply in_or_app; now left|auto]. }
    assert (K3 : forall v, In v (x_letters x) -> exists l c, In l (L ++ [LFinal s w]) /\ In (SChar c) (line_chars l) /\ from_char c v).
    { intros v Hv. destruct (B11 v Hv) as (l & c & H1 & H2 & H3). exists l, c. split; [apply in_or_app; now left|auto]. }
    assert (K4 : forall l c v, In l (L ++ [LFinal s w]) -> In (SChar c) (line_chars l) -> from_char c v -> In v (x_letters x)).
    { intros l c v Hl Hc Hf. apply in_app_or in Hl as [Hl|[<-|[]]]; [now apply (B12 l c)|destruct Hc]. }
    destruct (zfind s (x_finals x)) as [f|] eqn:E.
    - constructor; auto.
      intros q g. rewrite final_snoc, <- B10. split; [now left|]. intros [H|(-> & -> & N)]; [exact H|]. exfalso. apply (N f). now apply B10.
    - constructor; cbn [x_graph x_finals x_alph x_letters x_phantom]; auto.
      intros q g. rewrite final_snoc, <- B10, zfind_app. cbn [zfind]. split.
        * destruct (zfind q (x_finals x)) as [g'|] eqn:Eq; [now left|]. destruct (q =? s) eqn:Es; [|discriminate].
          intros [= <-]. right. split; [lia|]. split; [reflexivity|]. intros f' K. apply B10 in K. congruence.
        * intros [->|(-> & -> & N)]; [reflexivity|]. rewrite E, Z.eqb_refl. reflexivity.
  Qed.
  Lemma new_built : forall rl, built rl new_att [] [] [].
  Proof.
    intros rl. constructor; cbn [new_att x_graph x_finals x_alph x_letters x_phantom]; try (intros; contradiction); try lia.
    - apply new_inv.
    - intros s f. cbn. split; [discriminate|]. intros H. inversion H.
  Qed.

  (** * The lines *)
  Notation pline := (parse_line u_ispunct u_isspace u_islower u_isupper u_toupper u_tolower).
  Notation plines := (parse_lines u_ispunct u_isspace u_islower u_isupper u_toupper u_tolower).
  Lemma state_ok : forall c0 s g, numeral c0 s -> 1 <= g_offset g -> s + g_offset g < 2 ^ 31 -> state_col c0 g = Ok (s + g_offset g).
  Proof.
    intros c0 s g H O L. unfold state_col. rewrite (numeral_stoi _ _ H) by lia. cbn [number_col obind].
    replace (s + g_offset g <? 2 ^ 31) with true by lia. reflexivity.
  Qed.

  Lemma line_ok : forall hfst rl cols l x C L S g, line_says hfst cols l -> built rl x C L S ->
    1 <= g_offset g -> top_state [l] + g_offset g < 2 ^ 31 -> (g_first g = true -> exists c0 c1 r, cols = c0 :: c1 :: r) ->
    exists x' C', pline hfst rl cols (x, g)
        = Ok (x', mkProg false (g_multiple g) (g_offset g) (Z.max (g_largest g) (top_state [l] + g_offset g)))
      /\ built rl x' C' (L ++ [shift (g_offset g) l]) (if g_first g then S ++ [source l + g_offset g] else S).
  Proof.
    intros hfst rl cols l x C L S g [H _] B O T F.
    (* what all lines share *)
    assert (HD : exists c0 rest s, cols = c0 :: rest /\ numeral c0 s /\ s = source l).
    { inversion H; subst; eexists _, _, _; (split; [reflexivity|]); split; eauto. }
    destruct HD as (c0 & rest & s & -> & N0 & Es).
    assert (Hs := numeral_pos _ _ N0).
    assert (C0 : exists k c0', c0 = k :: c0') by (destruct c0; [destruct N0 as (N & _); congruence|eauto]). destruct C0 as (k & c0' & Ec0).
    assert (K45 : (k =? 45) = false). { destruct N0 as (_ & D & _). rewrite Ec0 in D. inversion D as [|? ? Dk _]; subst. unfold is_digit in Dk. lia. }
    assert (T0 : s <= top_state [l]).
    { subst s. destruct l; unfold top_state; cbn [flat_map line_states app fold_right source]; lia. }
    set (g1 := mkProg false (g_multiple g) (g_offset g) (Z.max (g_largest g) (s + g_offset g))).
    assert (ST : exists x1 C1, start_arc (s + g_offset g) (x, seen (s + g_offset g) g) = (x1, g1)
      /\ built rl x1 C1 L (if g_first g then S ++ [s + g_offset g] else S)).
    { unfold start_arc, seen, g1. cbn [g_first g_multiple g_offset g_largest]. destruct (g_first g) eqn:Eg.
      - destruct (start_ok rl x C L S (s + g_offset g) B ltac:(lia)) as (c & B'). eexists _, _. split; [reflexivity|exact B'].
      - exists x, C. split; [reflexivity|exact B]. }
    destruct ST as (x1 & C1 & E1 & B1).
    assert (ST0 : state_col c0 g = Ok (s + g_offset g)) by (apply state_ok; auto; lia).
    assert (NF : g_first g && match rest with [] => true | _ => false end = false).
    { destruct (g_first g); [|reflexivity]. destruct (F eq_refl) as (a0 & a1 & r & [= _ ->]). reflexivity. }
    assert (PRE : pline hfst rl (c0 :: rest) (x, g) = match rest with
          | [_; _] => Exit
          | _ :: _ :: _ :: _ :: _ :: _ => Exit
          | _ =>
              match rest with
              | c1 :: c2 :: c3 :: wt =>
                  let! to := state_col c1 g1 in
                  let g := seen to g1 in
                  let! w := weight_col wt in
                  let! x := transition (s + g_offset g1) to (convert_hfst hfst (if rl then c3 else c2)) (convert_hfst hfst (if rl then c2 else c3)) w x1 in
                  Ok (x, g)
              | _ =>
                  let! w := weight_col rest in
                  Ok (match zfind (s + g_offset g1) (x_finals x1) with
                      | Some _ => x1
                      | None => mkAtt (x_graph x1) (x_finals x1 ++ [(s + g_offset g1, w)]) (x_alph x1) (x_letters x1) (x_phantom x1)
                      end, g1)
              end
          end).
    { unfold parse_line. rewrite NF. rewrite Ec0 at 1. cbn iota. rewrite Ec0 at 1. rewrite K45. rewrite ST0. cbn [obind]. rewrite E1. 
      destruct rest as [|? [|? [|? [|? [|? ?]]]]]; reflexivity. }
    rewrite PRE. clear PRE E1 ST0. change (g_offset g1) with (g_offset g).
    assert (FIN : forall w, l = LFinal s w -> built rl (match zfind (s + g_offset g) (x_finals x1) with
              | Some _ => x1
              | None => mkAtt (x_graph x1) (x_finals x1 ++ [(s + g_offset g, w)]) (x_alph x1) (x_letters x1) (x_phantom x1)
              end) C1 (L ++ [shift (g_offset g) l]) (if g_first g then S ++ [s + g_offset g] else S)
      /\ g1 = mkProg false (g_multiple g) (g_offset g) (Z.max (g_largest g) (top_state [l] + g_offset g))).
    { intros w ->. split; [apply final_ok, B1|]. unfold g1. f_equal. unfold top_state. cbn [flat_map line_states app fold_right]. lia. }
    assert (ARC : forall c1 c2 c3 s' u v w, numeral c1 s' -> column hfst c2 u -> column hfst c3 v -> l = LArc s s' u v w ->
      exists x' C', (let! to := state_col c1 g1 in
                  let g := seen to g1 in
                  let! w := Ok w in
                  let! x := transition (s + g_offset g1) to (convert_hfst hfst (if rl then c3 else c2)) (convert_hfst hfst (if rl then c2 else c3)) w x1 in
                  Ok (x, g)) = Ok (x', mkProg false (g_multiple g) (g_offset g) (Z.max (g_largest g) (top_state [l] + g_offset g)))
        /\ built rl x' C' (L ++ [shift (g_offset g) l]) (if g_first g then S ++ [s + g_offset g] else S)).
    { intros c1 c2 c3 s' u v w N1 K2 K3 El. assert (Hs' := numeral_pos _ _ N1).
      assert (T1 : s' <= top_state [l]) by (subst l; unfold top_state; cbn [flat_map line_states app fold_right]; lia).
      rewrite (state_ok c1 s' g1 N1) by (cbn [g1 g_offset]; lia). cbn [obind]. change (g_offset g1) with (g_offset g).
      destruct (transition_ok hfst rl x1 C1 L _ (s + g_offset g) (s' + g_offset g) c2 c3 u v w B1 ltac:(lia) ltac:(lia) K2 K3) as (x' & c & E & B').
      rewrite E. cbn [obind]. eexists _, _. split; [|rewrite El; exact B'].
      do 2 f_equal. unfold seen, g1. cbn [g_first g_multiple g_offset g_largest]. f_equal.
      rewrite El. unfold top_state. cbn [flat_map line_states app fold_right]. lia. }
    subst s. inversion H as [? ? ? ? s1 s1' u1 v1 N0' N1 K2 K3 Q1 Q2|? ? ? ? c4 s1 s1' u1 v1 w1 N0' N1 K2 K3 A4 Q1 Q2|? s1 N0' Q1 Q2|? c1 s1 w1 N0' A1 Q1 Q2]; subst rest l; cbn [source] in *.
    - eapply ARC; eauto.
    - cbn [weight_col]. rewrite (stod_ok _ _ A4). cbn [number_col]. eapply ARC; eauto.
    - cbn [weight_col obind]. destruct (FIN 0 eq_refl) as [B' Eg]. eexists _, _. split; [rewrite Eg; reflexivity|exact B'].
    - cbn [weight_col]. rewrite (stod_ok _ _ A1). cbn [number_col obind]. destruct (FIN w1 eq_refl) as [B' Eg]. eexists _, _. split; [rewrite Eg; reflexivity|exact B'].
  Qed.

  Lemma lines_ok : forall hfst rl rows m, Forall2 (line_says hfst) rows m -> forall x C L S g, built rl x C L S ->
    1 <= g_offset g -> top_state m + g_offset g < 2 ^ 31 -> g_first g = false -> g_offset g <= g_largest g ->
    exists x' C', plines hfst rl rows (x, g) = Ok (x', mkProg false (g_multiple g) (g_offset g) (Z.max (g_largest g) (top_state m + g_offset g)))
      /\ built rl x' C' (L ++ map (shift (g_offset g)) m) S.
  Proof.
    intros hfst rl rows m H. induction H as [|cols l rows m H F IH]; intros x C L S g B O T Fg Lg; cbn [parse_lines map].
    - exists x, C. rewrite app_nil_r. split; [|exact B]. do 2 f_equal. destruct g as [f mu o la]; cbn [g_first g_multiple g_offset g_largest] in *. subst f. f_equal. unfold top_state; cbn [flat_map fold_right]. lia.
    - rewrite top_cons in T. destruct (line_ok hfst rl cols l x C L S g H B O ltac:(lia) ltac:(congruence)) as (x1 & C1 & E & B1). rewrite Fg in B1.
      rewrite E. cbn [obind].
      destruct (IH x1 C1 (L ++ [shift (g_offset g) l]) S (mkProg false (g_multiple g) (g_offset g) (Z.max (g_largest g) (top_state [l] + g_offset g)))) as (x' & C' & E' & B'); cbn [g_first g_multiple g_offset g_largest]; auto; try lia.
      cbn [g_first g_multiple g_offset g_largest] in E', B'. exists x', C'. split.
      + rewrite E', (top_cons l m). do 3 f_equal.
        lia.
      + rewrite <- app_assoc in B'. exact B'.
  Qed.
  Lemma machine_ok : forall hfst rl rows m x C L S g, machine_says hfst rows m -> built rl x C L S ->
    1 <= g_offset g -> top_state m + g_offset g < 2 ^ 31 -> g_first g = true -> g_largest g <= g_offset g ->
    exists x' C', plines hfst rl rows (x, g) = Ok (x', mkProg false (g_multiple g) (g_offset g) (top_state m + g_offset g))
      /\ built rl x' C' (L ++ map (shift (g_offset g)) m) (S ++ [start_of m + g_offset g]).
  Proof.
    intros hfst rl rows m x C L S g [H (c0 & c1 & cr & rest & ->)] B O T Fg Lg. inversion H as [|? l ? m' H1 F]; subst. clear H.
    cbn [parse_lines map start_of]. rewrite top_cons in *. assert (P1 := top_pos [l]). assert (P2 := top_pos m').
    destruct (line_ok hfst rl _ l x C L S g H1 B O ltac:(lia)) as (x1 & C1 & E & B1); [intros _; eauto|]. rewrite Fg in B1.
    rewrite E. cbn [obind].
    destruct (lines_ok hfst rl rest m' F x1 C1 _ _ (mkProg false (g_multiple g) (g_offset g) (Z.max (g_largest g) (top_state [l] + g_offset g))) B1) as (x' & C' & E' & B'); cbn [g_first g_multiple g_offset g_largest]; auto; try lia.
    cbn [g_first g_multiple g_offset g_largest] in E', B'. exists x', C'. split.
    - rewrite E'. do 3 f_equal. lia.
    - rewrite <- app_assoc in B'. exact B'.
  Qed.
  Lemma plines_app : forall hfst rl r1 r2 xg, plines hfst rl (r1 ++ r2) xg = (let! xg := plines hfst rl r1 xg in plines hfst rl r2 xg).
  Proof. intros hfst rl r1. induction r1 as [|c r1 IH]; intros r2 xg; cbn [app parse_lines obind]; [reflexivity|]. destruct (pline hfst rl c xg); cbn [obind]; auto. Qed.

  Lemma rows_ok : forall hfst rl rows ms, file_rows hfst rows ms -> forall x C L S g, built rl x C L S ->
    1 <= g_offset g -> fold_right (fun m n => top_state m + 1 + n) (g_offset g) ms <= 2 ^ 31 -> g_first g = true -> g_largest g <= g_offset g ->
    (g_multiple g = false -> g_offset g = 1) ->
    exists x' C' g', plines hfst rl rows (x, g) = Ok (x', g') /\ g_multiple g' = (g_multiple g || (1 <? length ms)%nat)
      /\ built rl x' C' (L ++ place (g_offset g) ms) (S ++ starts (g_offset g) ms).
  Proof.
    intros hfst rl rows ms H. induction H as [rows m H|rows m rows' ms H HF IH]; intros x C L S g B O T Fg Lg M; cbn [fold_right] in T.
    - destruct (machine_ok hfst rl rows m x C L S g H B O ltac:(lia) Fg Lg) as (x' & C' & E & B'). eexists _, _, _. split; [exact E|].
      split; [cbn; now rewrite orb_false_r|]. cbn [place starts]. rewrite app_nil_r. exact B'.
    - assert (P : forall n, 1 <= n -> n <= fold_right (fun m n => top_state m + 1 + n) n ms).
      { intros n Hn. clear. induction ms as [|q ms IH]; cbn [fold_right]; [lia|]. assert (K := top_pos q). lia. }
      specialize (P _ O).
      destruct (machine_ok hfst rl rows m x C L S g H B O ltac:(lia) Fg Lg) as (x1 & C1 & E & B1).
      rewrite plines_app, E. cbn [obind app parse_lines parse_line andb Z.eqb Pos.eqb g_first g_multiple g_offset g_largest].
      destruct (IH x1 C1 _ _ (mkProg true (g_multiple g || (g_offset g =? 1)) (top_state m + g_offset g + 1) (top_state m + g_offset g)) B1)
        as (x' & C' & g' & E' & M' & B'); cbn [g_first g_multiple g_offset g_largest]; try lia; auto.
      + assert (Q := top_pos m). lia.
      + replace (fold_right (fun m0 n => top_state m0 + 1 + n) (top_state m + g_offset g + 1) ms) with (top_state m + 1 + fold_right (fun m n => top_state m + 1 + n) (g_offset g) ms); [exact T|].
        clear. induction ms as [|q ms IH]; cbn [fold_right]; lia.
      + destruct (g_multiple g) eqn:Em; [discriminate|]. rewrite (M eq_refl). discriminate.
      + exists x', C', g'. cbn [g_first g_multiple g_offset g_largest] in E', M', B'. split; [exact E'|]. split.
        * rewrite M'. destruct (g_multiple g) eqn:Em; [reflexivity|]. rewrite (M eq_refl). destruct ms; [inversion HF|]. reflexivity.
        * cbn [place starts]. replace (g_offset g + top_state m + 1) with (top_state m + g_offset g + 1) by lia.
          rewrite !app_assoc. rewrite <- app_assoc in B'. rewrite <- !app_assoc in *. exact B'.
  Qed.
  Lemma text_ok : forall hfst rl text ms, file_says hfst text ms -> fits ms ->
    exists x C g, plines hfst rl (read_lines (length text) text) (new_att, new_progress) = Ok (x, g)
      /\ g_multiple g = (1 <? length ms)%nat /\ built rl x C (place 1 ms) (starts 1 ms).
  Proof.
    intros hfst rl text ms H F. destruct (file_read hfst text ms H) as (rows & -> & R).
    destruct (rows_ok hfst rl rows ms R new_att [] [] [] new_progress (new_built rl)) as (x & C & g & E & M & B); cbn [new_progress g_offset g_first g_largest g_multiple]; try lia.
    - unfold fits in F. lia.
    - exists x, C, g. auto.
  Qed.
End Build.
