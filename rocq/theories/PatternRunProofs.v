(** C69: what is stored for rules, and that it meets the conditions of the automaton. *)
From Verif Require Import Base CompressionModel AlphabetModel AlphabetProofs TransducerModel TransducerSpec MatchModel MatchProps PatternModel PatternSpec PatternBuildProofs PatternPathProofs.
From Coq Require Import Sorted.

(** * The calls for rules *)
Definition run_element (id : Z) (p : outcome plist) (e : element) : outcome plist :=
  let! p := p in
  match e with EPart q => insert id (pt_lemma q) (tags_text (pt_tags q)) p | ELabel k => insert_label id k p end.
Definition run_rule (p : outcome plist) (r : rule) : outcome plist :=
  let! p := p in
  match r with
  | RPart id q => insert id (pt_lemma q) (tags_text (pt_tags q)) p
  | RSequence id l => let! p := beginSequence p in let! p := fold_left (run_element id) l (Ok p) in endSequence p
  end.
Definition run_rules (l : list rule) : outcome plist := fold_left run_rule l (Ok new_plist).

(** * The alphabet *)
Definition alpha_ok (a : alphabet) : Prop :=
  alph_inv a /\ In ANY_CHAR (slexicinv a) /\ In ANY_TAG (slexicinv a) /\ In QUEUE (slexicinv a).
Lemma code_in : forall a s, alph_inv a -> (symbol_code s a <> 0 <-> In s (slexicinv a)).
Proof.
  intros a s H. rewrite <- (defined_iff a s H). unfold symbol_code, isSymbolDefined. split.
  - destruct (map_find _ _ _); [reflexivity|congruence].
  - intros D. apply (defined_iff a s H) in D. apply In_nth_error in D as [i Hi]. pose proof (symbol_code_nth a s i H Hi) as (E & _). unfold symbol_code in E. rewrite E. unfold tag_of. lia.
Qed.
Lemma code_neg : forall a s, alph_inv a -> symbol_code s a <> 0 -> symbol_code s a < 0.
Proof. intros a s H D. apply (code_in a s H) in D. apply In_nth_error in D as [i Hi]. destruct (symbol_code_nth a s i H Hi) as (-> & _). unfold tag_of. lia. Qed.
Lemma code_same : forall a s r, alph_inv a -> symbol_code s a <> 0 -> symbol_code s a = symbol_code r a -> s = r.
Proof.
  intros a s r H D E. assert (D' : symbol_code r a <> 0) by congruence. apply (code_in a s H) in D. apply (code_in a r H) in D'.
  apply In_nth_error in D as [i Hi]. apply In_nth_error in D' as [j Hj]. destruct (symbol_code_nth a s i H Hi) as (E1 & _). destruct (symbol_code_nth a r j H Hj) as (E2 & _).
  rewrite E1, E2 in E. unfold tag_of in E. assert (i = j) by lia. congruence.
Qed.
Lemma code_extends : forall a b s, alph_inv a -> alph_inv b -> extends a b -> symbol_code s a <> 0 -> symbol_code s b = symbol_code s a.
Proof.
  intros a b s Ha Hb E D. apply (code_in a s Ha) in D. apply In_nth_error in D as [i Hi]. destruct (symbol_code_nth a s i Ha Hi) as (-> & _).
  apply (proj1 (AlphabetProofs.extends_nth a b E)) in Hi. now destruct (symbol_code_nth b s i Hb Hi).
Qed.
Lemma tc_neg : forall a n, alpha_ok a -> tag_code a n <> 0 -> tag_code a n < 0.
Proof. intros a n (H & _). now apply code_neg. Qed.
Lemma tc_inj : forall a n m, alpha_ok a -> tag_code a n <> 0 -> tag_code a n = tag_code a m -> n = m.
Proof. intros a n m (H & _) D E. apply code_same in E; auto. injection E as E. now apply app_inj_tail in E. Qed.
Lemma anys : forall a, alpha_ok a -> symbol_code ANY_CHAR a < 0 /\ symbol_code ANY_TAG a < 0 /\ symbol_code QUEUE a < 0.
Proof. intros a (H & H1 & H2 & H3). split; [|split]; apply code_neg; auto; now apply code_in. Qed.
Lemma anys_ne : forall a, alpha_ok a -> symbol_code ANY_CHAR a <> symbol_code QUEUE a /\ symbol_code ANY_TAG a <> symbol_code QUEUE a /\ symbol_code ANY_CHAR a <> symbol_code ANY_TAG a.
Proof. intros a H. pose proof (anys a H). destruct H as (H & _). split; [|split]; intros E; apply (code_same a _ _ H) in E; try discriminate; lia. Qed.
Definition grows (a b : alphabet) : Prop := alpha_ok b /\ extends a b.
Lemma grows_refl : forall a, alpha_ok a -> grows a a.
Proof. intros a H. split; [exact H|apply extends_refl]. Qed.
Lemma grows_trans : forall a b c, grows a b -> grows b c -> grows a c.
Proof. intros a b c [_ E1] [H E2]. split; [exact H|]. eapply extends_trans; eauto. Qed.
Lemma include_grows : forall a s, alpha_ok a -> grows a (includeSymbol s a).
Proof.
  intros a s (H & H1 & H2 & H3). pose proof (include_extends s a H) as E. split; [|exact E]. destruct E as [(l & E) _].
  split; [now apply include_inv|]. rewrite E. split; [|split]; apply in_or_app; now left.
Qed.
Lemma atom_grows : forall a b x, alpha_ok a -> grows a b -> atom_ok a x -> atom_ok b x /\ code b x = code a x.
Proof.
  intros a b x Ha [Hb E] H.
  assert (G : forall s, symbol_code s a <> 0 -> symbol_code s b = symbol_code s a) by (intros s; apply code_extends; [apply Ha|apply Hb|exact E]).
  pose proof (anys a Ha) as (N1 & N2 & N3). destruct x as [c| |n| |]; cbn [atom_ok code] in *; auto; try (split; [exact I|apply G; lia]).
  destruct H as [H1 H2]. split; [split; [exact H1|]|]; unfold tag_code in *; rewrite (G _ H2); auto.
Qed.
Lemma atoms_grow : forall a b al, alpha_ok a -> grows a b -> Forall (atom_ok a) al -> Forall (atom_ok b) al /\ map (code b) al = map (code a) al.
Proof.
  intros a b al Ha G H. induction H as [|x al Hx H [IH1 IH2]]; [split; [constructor|reflexivity]|]. destruct (atom_grows a b x Ha G Hx) as [X1 X2]. split; [now constructor|]. cbn [map]. now rewrite X2, IH2.
Qed.
Lemma queue_grows : forall a b, alpha_ok a -> grows a b -> symbol_code QUEUE b = symbol_code QUEUE a.
Proof. intros a b Ha G. now apply (atom_grows a b AQueue Ha G). Qed.
Lemma key_grows : forall a b l, alpha_ok a -> grows a b -> key_of b l = key_of a l.
Proof. intros a b l Ha G. unfold key_of, push. now rewrite (queue_grows a b Ha G). Qed.

(** * Tags and lemmas *)
Lemma pieces_text : forall l, l <> [] -> Forall (fun n => ~ In 46 n) l -> MatchProps.pieces (tags_text l) = l.
Proof.
  induction l as [|n l IH]; intros Hn H; [congruence|]. inversion H as [|? ? H1 H2]; subst. destruct l as [|m l].
  - cbn [tags_text]. destruct (pieces_app_plain n [] H1) as (p & ps & E1 & E2). cbn in E1. injection E1 as <- <-. now rewrite !app_nil_r in E2.
  - change (tags_text (n :: m :: l)) with (n ++ 46 :: tags_text (m :: l)). destruct (pieces_app_plain n (46 :: tags_text (m :: l)) H1) as (p & ps & E1 & E2).
    rewrite E2. cbn [MatchProps.pieces Z.eqb] in E1. change (46 =? 46) with true in E1. cbn iota in E1. injection E1 as <- <-. rewrite app_nil_r. f_equal. apply IH; [discriminate|exact H2].
Qed.
Definition tag_atom (n : ustr) : atom := if ustr_eq_dec n [42] then AAnyTag else ATag n.
Lemma tag_symbols_ok : forall tags text pre a, alpha_ok a -> Forall (fun n => ~ In n reserved) tags ->
  (forall i, 0 <= i -> tagAt text i = Ok (nth (Z.to_nat i) (pre ++ tags) [])) ->
  exists a', tag_symbols (length tags) (Z.of_nat (length pre)) text a = Ok (map (code a') (map tag_atom tags), a') /\ grows a a' /\ Forall (atom_ok a') (map tag_atom tags).
Proof.
  induction tags as [|n tags IH]; intros text pre a Ha Hr Ht; cbn [length tag_symbols map].
  - exists a. split; [reflexivity|]. split; [now apply grows_refl|constructor].
  - inversion Hr as [|? ? Hr1 Hr2]; subst. rewrite Ht by lia. rewrite Nat2Z.id, app_nth2, Nat.sub_diag by lia. cbn [nth obind].
    set (x := if ustr_eq_dec ([60] ++ n ++ [62]) [60; 42; 62] then _ else _).
    assert (Hx : exists a1, x = (code a1 (tag_atom n), a1) /\ grows a a1 /\ atom_ok a1 (tag_atom n)).
    { unfold x, tag_atom. destruct (ustr_eq_dec ([60] ++ n ++ [62]) [60; 42; 62]) as [E|E].
      - assert (n = [42]) as -> by (injection E as E; change [42; 62] with ([42] ++ [62]) in E; now apply app_inj_tail in E). destruct (ustr_eq_dec [42] [42]); [|congruence]. exists a. split; [reflexivity|]. split; [now apply grows_refl|exact I].
      - destruct (ustr_eq_dec n [42]) as [->|N]; [exfalso; now apply E|]. pose proof (include_grows a ([60] ++ n ++ [62]) Ha) as G. eexists. split; [reflexivity|]. split; [exact G|]. split; [exact Hr1|].
        apply code_in; [apply G|]. apply include_in, Ha. }
    destruct Hx as (a1 & -> & G1 & O1). destruct (IH text (pre ++ [n]) a1) as (a2 & E2 & G2 & O2); [apply G1|exact Hr2| |].
    { intros i Hi. rewrite <- app_assoc. apply Ht, Hi. }
    rewrite app_length in E2. cbn [length] in E2. replace (Z.of_nat (length pre) + 1) with (Z.of_nat (length pre + 1)) by lia. rewrite E2. cbn [obind].
    destruct (atom_grows a1 a2 _ (proj1 G1) G2 O1) as [X1 X2]. exists a2. rewrite X2. split; [reflexivity|]. split; [eapply grows_trans; eauto|now constructor].
Qed.
Lemma part_stored : forall a q, alpha_ok a -> part_ok q ->
  exists a', insertOutOfSequence (pt_lemma q) (tags_text (pt_tags q)) a = Ok (map (code a') (part_atoms q), a') /\ grows a a' /\ Forall (atom_ok a') (part_atoms q).
Proof.
  intros a [lemma tags] Ha (H1 & H2 & H3 & H4 & H5 & H6). cbn [pt_lemma pt_tags] in *. unfold insertOutOfSequence.
  set (L := match lemma with [] => [AAnyChar] | l => map (fun c => if c =? 42 then AAnyChar else AChar c) l end).
  assert (EP : part_atoms (mkPart lemma tags) = L ++ match tags with [] => [AAnyTag] | _ => map tag_atom tags end) by (unfold L; destruct lemma, tags; reflexivity). rewrite EP.
  assert (HL : Forall (atom_ok a) L /\ match lemma with [] => [symbol_code ANY_CHAR a] | _ => map (fun c => if c =? 42 then symbol_code ANY_CHAR a else c) lemma end = map (code a) L).
  { unfold L. destruct lemma as [|c l]; [split; [repeat constructor|reflexivity]|]. split.
    - apply Forall_map. revert H1. apply Forall_impl. intros x Hx. destruct (x =? 42); [exact I|exact Hx].
    - rewrite map_map. apply map_ext. intros x. destruct (x =? 42); reflexivity. }
  destruct HL as [HL ->].
  assert (HT : exists a', match tags_text tags with [] => Ok ([symbol_code ANY_TAG a], a) | _ => tag_symbols (Z.to_nat (tagCount (tags_text tags))) 0 (tags_text tags) a end
     = Ok (map (code a') (match tags with [] => [AAnyTag] | _ => map tag_atom tags end), a') /\ grows a a' /\ Forall (atom_ok a') (match tags with [] => [AAnyTag] | _ => map tag_atom tags end)).
  { destruct tags as [|n r]; [exists a; split; [reflexivity|]; split; [now apply grows_refl|repeat constructor]|].
    set (tags := n :: r) in *. assert (Hd : Forall (fun n => ~ In 46 n) tags) by (revert H3; apply Forall_impl; tauto).
    assert (Hn : exists c l, tags_text tags = c :: l /\ c <> 46).
    { destruct n as [|c n]; [exfalso; now apply H6|]. inversion Hd as [|? ? D1 D2]; subst. assert (c <> 46) by (intros ->; apply D1; now left).
      unfold tags. destruct r as [|m r]; [exists c, n; auto|]. exists c, (n ++ 46 :: tags_text (m :: r)). auto. }
    destruct Hn as (c & l & E & Hc). destruct (C49_tags (tags_text tags)) as (T1 & T2 & _); [rewrite E; discriminate|rewrite E; exact Hc|].
    rewrite (pieces_text tags) in T1, T2 by (auto; discriminate).
    destruct (tag_symbols_ok tags (tags_text tags) [] a Ha) as (a' & E' & G & O); [revert H3; apply Forall_impl; tauto|exact T2|].
    exists a'. rewrite T1, Nat2Z.id. rewrite E in *. split; [exact E'|]. auto. }
  destruct HT as (a' & -> & G & O). cbn [obind]. exists a'. destruct (atoms_grow a a' L Ha G HL) as [X1 X2].
  split; [rewrite map_app, X2; reflexivity|]. split; [exact G|]. apply Forall_app. auto.
Qed.

(** * Shapes of patterns *)
Definition tag_like (x : atom) : Prop := match x with ATag _ | AAnyTag => True | _ => False end.
Definition char_like (x : atom) : Prop := match x with AChar _ | AAnyChar => True | _ => False end.
Definition adj (x y : atom) : Prop :=
  match x with
  | AChar _ => char_like y \/ tag_like y
  | AAnyChar => tag_like y \/ exists c, y = AChar c
  | ATag _ => tag_like y \/ y = AQueue \/ y = AChar 43
  | AAnyTag => (exists n, y = ATag n) \/ y = AQueue \/ y = AChar 43
  | AQueue => y = AChar 43
  end.
Fixpoint chain (l : list atom) : Prop :=
  match l with x :: r => match r with y :: _ => adj x y | [] => True end /\ chain r | [] => True end.
Lemma chain_app : forall u x y v, chain (u ++ x :: y :: v) <-> chain (u ++ [x]) /\ adj x y /\ chain (y :: v).
Proof.
  induction u as [|z u IH]; intros x y v.
  - cbn [app chain]. tauto.
  - cbn [app chain]. rewrite IH. destruct u; cbn [app chain]; tauto.
Qed.
Definition stem (al : list atom) : Prop := exists x r u y, al = x :: r /\ al = u ++ [y] /\ char_like x /\ (tag_like y \/ y = AQueue) /\ chain al.
Lemma lemma_chain : forall l, (forall x y, l <> x ++ [42; 42] ++ y) -> chain (map (fun c => if c =? 42 then AAnyChar else AChar c) l).
Proof.
  induction l as [|c l IH]; intros H; cbn [map chain]; [exact I|]. split; [|apply IH; intros x y E; apply (H (c :: x) y); now rewrite E].
  destruct l as [|d l]; cbn [map]; [exact I|]. destruct (Z.eqb_spec c 42) as [->|]; destruct (Z.eqb_spec d 42) as [->|]; cbn [adj char_like]; auto; [exfalso; now apply (H [] l)|right; eauto].
Qed.
Lemma tags_chain : forall l, no_double [42] l -> chain (map tag_atom l).
Proof.
  induction l as [|c l IH]; intros H; cbn [map chain]; [exact I|]. split; [|apply IH; intros x y E; apply (H (c :: x) y); now rewrite E].
  destruct l as [|d l]; cbn [map]; [exact I|]. unfold tag_atom. destruct (ustr_eq_dec c [42]) as [->|]; destruct (ustr_eq_dec d [42]) as [->|]; cbn [adj tag_like]; auto; [exfalso; now apply (H [] l)|left; eauto].
Qed.
Lemma chain_join : forall u v, chain u -> chain v -> (forall x y u' v', u = u' ++ [x] -> v = y :: v' -> adj x y) -> chain (u ++ v).
Proof.
  intros u v Hu Hv H. destruct (snoc_case u) as [->|(u' & x & ->)]; [exact Hv|]. destruct v as [|y v]; [now rewrite app_nil_r|].
  rewrite <- app_assoc. cbn [app]. apply chain_app. split; [exact Hu|]. split; [eapply H; reflexivity|exact Hv].
Qed.
Lemma part_stem : forall q, part_ok q -> stem (part_atoms q).
Proof.
  intros [lemma tags] (H1 & H2 & H3 & H4 & H5 & H6). cbn [pt_lemma pt_tags] in *.
  set (T := match tags with [] => [AAnyTag] | _ => map tag_atom tags end).
  set (L := match lemma with [] => [AAnyChar] | l => map (fun c => if c =? 42 then AAnyChar else AChar c) l end).
  assert (EP : part_atoms (mkPart lemma tags) = L ++ T) by (unfold L; destruct lemma, tags; reflexivity). rewrite EP.
  assert (CL : chain L /\ Forall char_like L /\ L <> []).
  { unfold L. destruct lemma as [|c l]; [cbn; repeat split; auto; try discriminate; repeat constructor|]. split; [now apply lemma_chain|]. split; [|discriminate]. apply Forall_map, Forall_forall. intros x _. destruct (x =? 42); exact I. }
  assert (CT : chain T /\ Forall tag_like T /\ T <> []).
  { unfold T. destruct tags as [|n r]; [cbn; repeat split; auto; try discriminate; repeat constructor|]. split; [now apply tags_chain|]. split; [|discriminate]. apply Forall_map, Forall_forall. intros x _. unfold tag_atom. destruct (ustr_eq_dec x [42]); exact I. }
  destruct CL as (L1 & L2 & L3), CT as (T1 & T2 & T3).
  clear EP. clearbody L T. destruct L as [|x L]; [congruence|]. destruct (snoc_case T) as [ET|(T' & y & ET)]; [congruence|].
  exists x, (L ++ T), ((x :: L) ++ T'), y. split; [reflexivity|]. split; [rewrite ET; cbn [app]; now rewrite app_assoc|]. split; [now apply Forall_inv in L2|].
  split; [left; rewrite ET in T2; apply Forall_app in T2 as [_ T2]; now apply Forall_inv in T2|].
  apply chain_join; auto. intros z w u' v' E1 E2. assert (char_like z) by (rewrite E1 in L2; apply Forall_app in L2 as [_ L2]; now apply Forall_inv in L2).
  assert (tag_like w) by (rewrite E2 in T2; now apply Forall_inv in T2). destruct z; try contradiction; cbn [adj]; auto.
Qed.
Lemma stem_join : forall u v, stem u -> stem v -> stem (u ++ AChar 43 :: v).
Proof.
  intros u v (x & r & u' & y & E1 & E2 & Hx & Hy & C) (x2 & r2 & u2 & y2 & F1 & F2 & Hx2 & Hy2 & C2).
  exists x, (r ++ AChar 43 :: v), (u ++ AChar 43 :: u2), y2. split; [now rewrite E1|]. split; [rewrite F2, <- app_assoc; reflexivity|]. split; [exact Hx|]. split; [exact Hy2|].
  rewrite E2, <- app_assoc. cbn [app]. apply chain_app. rewrite <- E2. split; [exact C|]. split.
  - destruct Hy as [Hy| ->]; [|reflexivity]. destruct y; try contradiction; cbn [adj]; auto.
  - rewrite F1 in *. split; [|exact C2]. left. exact Hx2.
Qed.
Lemma stem_queue : forall u, stem u -> stem (with_queue u) /\ exists u', with_queue u = u' ++ [AQueue].
Proof.
  intros u (x & r & u' & y & E1 & E2 & Hx & Hy & C). unfold with_queue. rewrite E2, last_last.
  assert (K : y = AQueue \/ tag_like y) by tauto. destruct K as [->|K].
  - split; [|rewrite <- E2, E1; exists u'; congruence]. rewrite <- E2. rewrite E1 at 1. rewrite E1. exists x, r, u', AQueue. rewrite <- E1. auto.
  - assert (N : (match y with AQueue => match u' ++ [y] with [] => [AQueue] | _ => u' ++ [y] end | _ => (u' ++ [y]) ++ [AQueue] end) = u ++ [AQueue]) by (destruct y; try contradiction; now rewrite <- E2).
    rewrite N. split; [|eauto]. exists x, (r ++ [AQueue]), u, AQueue. split; [now rewrite E1|]. split; [reflexivity|]. split; [exact Hx|]. split; [now right|].
    rewrite E2, <- app_assoc. cbn [app]. apply chain_app. rewrite <- E2. split; [exact C|]. split; [|cbn; auto]. destruct y; try contradiction; cbn [adj]; auto.
Qed.

(** * Keys of stored patterns *)
Lemma push_plain : forall a l k, Forall (fun v => v <> symbol_code QUEUE a) l -> fold_left (push a) l k = k ++ l.
Proof.
  intros a l. induction l as [|v l IH]; intros k H; cbn [fold_left]; [now rewrite app_nil_r|]. inversion H as [|? ? H1 H2]; subst. rewrite IH by exact H2.
  unfold push at 1. rewrite (proj2 (Z.eqb_neq _ _) H1). cbn [andb]. rewrite <- app_assoc. reflexivity.
Qed.
Lemma push_after : forall a l k v y, symbol_code QUEUE a < 0 -> v <> symbol_code QUEUE a -> fold_left (push a) l (k ++ v :: y) = k ++ v :: fold_left (push a) l y.
Proof.
  intros a l. induction l as [|u l IH]; intros k v y Hq Hv; cbn [fold_left]; [reflexivity|].
  assert (E : push a (k ++ v :: y) u = k ++ v :: push a y u); [|rewrite E; now apply IH].
  unfold push. assert (Ls : (last (k ++ v :: y) 0 =? symbol_code QUEUE a) = (last y 0 =? symbol_code QUEUE a)).
  { destruct (snoc_case y) as [->|(y' & z & ->)]; [rewrite last_last; cbn [last]; rewrite (proj2 (Z.eqb_neq _ _) Hv); symmetry; apply Z.eqb_neq; lia|].
    rewrite app_comm_cons, app_assoc, !last_last. reflexivity. }
  rewrite Ls. destruct (_ && _); [reflexivity|]. rewrite <- app_assoc. reflexivity.
Qed.
Lemma key_join : forall a x y, symbol_code QUEUE a < 0 -> key_of a (x ++ [43] ++ y) = key_of a x ++ 43 :: key_of a y.
Proof.
  intros a x y H. unfold key_of. rewrite fold_left_app. cbn [app fold_left]. unfold push at 2. rewrite (proj2 (Z.eqb_neq 43 (symbol_code QUEUE a))) by lia. cbn [andb].
  apply (push_after a y _ 43 []); lia.
Qed.
Lemma code_queue : forall a x, alpha_ok a -> atom_ok a x -> code a x = symbol_code QUEUE a -> x = AQueue.
Proof.
  intros a x Ha Hx E. pose proof (anys a Ha) as (N1 & N2 & N3). apply (code_inj a) with (x := x) (y := AQueue); auto; try lia; try exact I.
  - intros n. now apply tc_neg.
  - intros n m. now apply tc_inj.
Qed.
Lemma key_queue : forall a x al, alpha_ok a -> Forall (atom_ok a) al -> key_of a x = map (code a) al ->
  key_of a (x ++ [symbol_code QUEUE a]) = map (code a) (with_queue al).
Proof.
  intros a x al Ha Hal E. unfold key_of in *. rewrite fold_left_app. cbn [fold_left]. rewrite E. unfold push, with_queue. rewrite Z.eqb_refl. cbn [andb].
  destruct (snoc_case al) as [->|(al' & y & ->)].
  - cbn [map last]. pose proof (anys a Ha) as (_ & _ & N). rewrite (proj2 (Z.eqb_neq 0 (symbol_code QUEUE a))) by lia. reflexivity.
  - rewrite (map_app (code a)). cbn [map]. rewrite !last_last. apply Forall_app in Hal as [_ Hy]. apply Forall_inv in Hy.
    destruct (Z.eqb_spec (code a y) (symbol_code QUEUE a)) as [Ey|Ey].
    + apply code_queue in Ey as ->; auto. destruct al' as [|z r]; [reflexivity|]. cbn [app map]. now rewrite map_app.
    + assert (y <> AQueue) by (intros ->; now apply Ey). destruct y; try congruence; now rewrite !map_app.
Qed.
Lemma part_key : forall a q, alpha_ok a -> Forall (atom_ok a) (part_atoms q) -> key_of a (map (code a) (part_atoms q)) = map (code a) (part_atoms q).
Proof.
  intros a q Ha H. unfold key_of. rewrite push_plain; [reflexivity|]. apply Forall_map. rewrite Forall_forall in H |- *. intros x Hx E. apply code_queue in E; auto. subst x.
  unfold part_atoms in Hx. apply in_app_or in Hx as [Hx|Hx].
  - destruct (pt_lemma q); [destruct Hx as [Hx|[]]; discriminate|]. apply in_map_iff in Hx as (c & Hx & _). destruct (c =? 42); discriminate.
  - destruct (pt_tags q); [destruct Hx as [Hx|[]]; discriminate|]. apply in_map_iff in Hx as (c & Hx & _). destruct (ustr_eq_dec c [42]); discriminate.
Qed.

(** * The store *)
Lemma pm_insert_in : forall k v l x, In x (pm_insert k v l) <-> x = (k, v) \/ In x l.
Proof.
  induction l as [|[k' v'] l IH]; intros x; cbn [pm_insert]; [cbn; intuition congruence|]. destruct (k <? k'); cbn [In]; [intuition congruence|]. rewrite IH. intuition congruence.
Qed.
Definition by_id (x y : Z * list Z) : Prop := fst x <= fst y.
Lemma pm_insert_sorted : forall k v l, StronglySorted by_id l -> StronglySorted by_id (pm_insert k v l).
Proof.
  intros k v l H. induction H as [|[k' v'] l H IH F]; cbn [pm_insert]; [repeat constructor|]. destruct (Z.ltb_spec k k').
  - constructor; [now constructor|]. constructor; [unfold by_id; cbn; lia|]. revert F. apply Forall_impl. unfold by_id. cbn. intros. lia.
  - constructor; [exact IH|]. apply Forall_forall. intros x Hx. apply pm_insert_in in Hx as [->|Hx]; [unfold by_id; cbn; lia|]. rewrite Forall_forall in F. auto.
Qed.
Lemma pm_fold_in : forall id vs l x, In x (fold_left (fun l v => pm_insert id v l) vs l) <-> (exists v, In v vs /\ x = (id, v)) \/ In x l.
Proof.
  intros id. induction vs as [|v vs IH]; intros l x; cbn [fold_left].
  - split; [auto|intros [(v & [] & _)|H]; exact H].
  - rewrite IH, pm_insert_in. cbn [In]. split.
    + intros [(u & H & ->)|[->|H]]; eauto.
    + intros [(u & [->|H] & ->)|H]; eauto.
Qed.
Lemma pm_fold_sorted : forall id vs l, StronglySorted by_id l -> StronglySorted by_id (fold_left (fun l v => pm_insert id v l) vs l).
Proof. intros id. induction vs as [|v vs IH]; intros l H; cbn [fold_left]; [exact H|]. apply IH. now apply pm_insert_sorted. Qed.
Lemma pm_range_in : forall k l v, In v (pm_range k l) <-> In (k, v) l.
Proof.
  intros k l v. unfold pm_range. rewrite in_map_iff. split.
  - intros ([k' v'] & E & H). apply filter_In in H as [H E2]. apply Z.eqb_eq in E2. cbn in *. subst. exact H.
  - intros H. exists (k, v). split; [reflexivity|]. apply filter_In. split; [exact H|apply Z.eqb_refl].
Qed.
(** The same keys, as a set *)
Definition matches (a : alphabet) (data : list (list Z)) (cur : list (list atom)) : Prop :=
  (forall l, In l data -> exists al, In al cur /\ key_of a l = map (code a) al)
  /\ (forall al, In al cur -> exists l, In l data /\ key_of a l = map (code a) al).
Definition good (a : alphabet) (al : list atom) : Prop := Forall (atom_ok a) al /\ stem al.
Definition stored (p : plist) (s : store) : Prop :=
  (forall id l, In (id, l) (pl_patterns p) -> exists al, In (id, al) s /\ key_of (pl_alpha p) l = map (code (pl_alpha p)) al)
  /\ (forall id al, In (id, al) s -> exists l, In (id, l) (pl_patterns p) /\ key_of (pl_alpha p) l = map (code (pl_alpha p)) al).
Record state_ok (p : plist) (s : store) : Prop := {
  st_alpha : alpha_ok (pl_alpha p); st_sorted : StronglySorted by_id (pl_patterns p);
  st_good : forall id al, In (id, al) s -> good (pl_alpha p) al /\ exists r, al = r ++ [AQueue];
  st_stored : stored p s }.
Lemma good_grows : forall a b al, alpha_ok a -> grows a b -> good a al -> good b al /\ map (code b) al = map (code a) al.
Proof. intros a b al Ha G [H1 H2]. destruct (atoms_grow a b al Ha G H1). split; [split|]; auto. Qed.
Lemma matches_grows : forall a b data cur, alpha_ok a -> grows a b -> Forall (good a) cur -> matches a data cur -> matches b data cur.
Proof.
  intros a b data cur Ha G Hg [M1 M2]. rewrite Forall_forall in Hg. split.
  - intros l Hl. destruct (M1 l Hl) as (al & H1 & H2). exists al. split; [exact H1|]. rewrite (key_grows a b l Ha G), H2. symmetry. apply (good_grows a b al Ha G (Hg _ H1)).
  - intros al Hal. destruct (M2 al Hal) as (l & H1 & H2). exists l. split; [exact H1|]. rewrite (key_grows a b l Ha G), H2. symmetry. apply (good_grows a b al Ha G (Hg _ Hal)).
Qed.
Lemma state_grows : forall p b s ps sq d i, state_ok p s -> grows (pl_alpha p) b -> ps = pl_patterns p -> state_ok (mkPL b ps sq d i) s.
Proof.
  intros p b s ps sq d i [H1 H2 H3 [H4 H5]] G ->. constructor; cbn [pl_alpha pl_patterns].
  - apply G.
  - exact H2.
  - intros id al Hi. destruct (H3 id al Hi) as [Hg Hr]. split; [now apply (good_grows _ _ _ H1 G)|exact Hr].
  - split; cbn [pl_alpha pl_patterns]; intros id x Hi.
    + destruct (H4 id x Hi) as (al & K1 & K2). exists al. split; [exact K1|]. rewrite (key_grows _ _ _ H1 G), K2. symmetry. apply (good_grows _ _ al H1 G). apply (H3 _ _ K1).
    + destruct (H5 id x Hi) as (l & K1 & K2). exists l. split; [exact K1|]. rewrite (key_grows _ _ _ H1 G), K2. symmetry. apply (good_grows _ _ x H1 G). apply (H3 _ _ Hi).
Qed.
Lemma with_queue_ok : forall a al, alpha_ok a -> Forall (atom_ok a) al -> Forall (atom_ok a) (with_queue al).
Proof.
  intros a al Ha H. unfold with_queue. destruct (last al AQueue); try (apply Forall_app; split; [exact H|repeat constructor]). destruct al; [repeat constructor|exact H].
Qed.
Lemma good_queue : forall a al, alpha_ok a -> good a al -> good a (with_queue al) /\ exists r, with_queue al = r ++ [AQueue].
Proof. intros a al Ha [H1 H2]. destruct (stem_queue al H2) as [X1 X2]. split; [split; [now apply with_queue_ok|exact X1]|exact X2]. Qed.
(** endSequence, and a part by itself *)
Lemma store_ok : forall p s id data cur sq d i, state_ok p s -> Forall (good (pl_alpha p)) cur -> matches (pl_alpha p) data cur ->
  state_ok (mkPL (pl_alpha p) (fold_left (fun l v => pm_insert id v l) (map (fun v => v ++ [symbol_code QUEUE (pl_alpha p)]) data) (pl_patterns p)) sq d i)
           (s ++ map (fun a => (id, with_queue a)) cur).
Proof.
  intros p s id data cur sq d i [H1 H2 H3 [H4 H5]] Hg [M1 M2]. rewrite Forall_forall in Hg. constructor; cbn [pl_alpha pl_patterns].
  - exact H1.
  - now apply pm_fold_sorted.
  - intros id' al Hi. apply in_app_or in Hi as [Hi|Hi]; [eapply H3; eauto|]. apply in_map_iff in Hi as (x & E & Hx). injection E as <- <-. apply good_queue; auto.
  - split; cbn [pl_alpha pl_patterns].
    + intros id' l Hi. apply pm_fold_in in Hi as [(v & Hv & E)|Hi].
      * injection E as -> ->. apply in_map_iff in Hv as (v0 & <- & Hv). destruct (M1 _ Hv) as (al & K1 & K2). exists (with_queue al). split.
        -- apply in_or_app. right. apply in_map_iff. eauto.
        -- apply key_queue; auto. apply (Hg _ K1).
      * destruct (H4 _ _ Hi) as (al & K1 & K2). exists al. split; [apply in_or_app; now left|exact K2].
    + intros id' al Hi. apply in_app_or in Hi as [Hi|Hi].
      * destruct (H5 _ _ Hi) as (l & K1 & K2). exists l. split; [apply pm_fold_in; now right|exact K2].
      * apply in_map_iff in Hi as (x & E & Hx). injection E as <- <-. destruct (M2 _ Hx) as (l & K1 & K2). exists (l ++ [symbol_code QUEUE (pl_alpha p)]). split.
        -- apply pm_fold_in. left. eexists. split; [|reflexivity]. apply in_map_iff. eauto.
        -- apply key_queue; auto. apply (Hg _ Hx).
Qed.
Lemma run_part : forall p s id q, state_ok p s -> pl_sequence p = false -> part_ok q ->
  exists p', insert id (pt_lemma q) (tags_text (pt_tags q)) p = Ok p' /\ pl_sequence p' = false /\ state_ok p' (add_rule s (RPart id q)).
Proof.
  intros p s id q H Hs Hq. destruct (part_stored (pl_alpha p) q (st_alpha _ _ H) Hq) as (a' & E & G & O). unfold insert. rewrite Hs, E. cbn [obind].
  eexists. split; [reflexivity|]. split; [reflexivity|]. cbn [add_rule].
  pose proof (state_grows p a' s (pl_patterns p) false (pl_data p) (pl_id p) H G eq_refl) as H'.
  pose proof (store_ok _ s id [map (code a') (part_atoms q)] [part_atoms q] false (pl_data p) (pl_id p) H') as X. cbn [pl_alpha pl_patterns map fold_left] in X. apply X.
  - constructor; [|constructor]. split; [exact O|now apply part_stem].
  - split.
    + intros l [<-|[]]. exists (part_atoms q). split; [now left|]. apply part_key; [apply G|exact O].
    + intros al [<-|[]]. eexists. split; [now left|]. apply part_key; [apply G|exact O].
Qed.

(** * Sequences *)
Lemma seq_snoc : forall s l e al, l <> [] -> (In al (sequences s (l ++ [e])) <-> exists u b, In u (sequences s l) /\ In b (element_atoms s e) /\ al = u ++ AChar 43 :: b).
Proof.
  intros s l e. induction l as [|x l IH]; intros al Hn; [congruence|]. destruct l as [|y l].
  - cbn [app sequences]. rewrite in_flat_map. split.
    + intros (u & Hu & H). apply in_map_iff in H as (b & <- & Hb). eauto 6.
    + intros (u & b & Hu & Hb & ->). exists u. split; [exact Hu|]. apply in_map_iff. eauto.
  - change (sequences s ((x :: y :: l) ++ [e])) with (flat_map (fun a => map (fun b => a ++ AChar 43 :: b) (sequences s ((y :: l) ++ [e]))) (element_atoms s x)).
    change (sequences s (x :: y :: l)) with (flat_map (fun a => map (fun b => a ++ AChar 43 :: b) (sequences s (y :: l))) (element_atoms s x)).
    rewrite in_flat_map. split.
    + intros (u & Hu & H). apply in_map_iff in H as (b & <- & Hb). apply IH in Hb as (u2 & b2 & H1 & H2 & ->); [|discriminate].
      exists (u ++ AChar 43 :: u2), b2. split; [apply in_flat_map; exists u; split; [exact Hu|apply in_map_iff; eauto]|]. split; [exact H2|]. rewrite <- app_assoc. reflexivity.
    + intros (u & b & Hu & Hb & ->). apply in_flat_map in Hu as (u1 & Hu1 & H). apply in_map_iff in H as (u2 & <- & Hu2). exists u1. split; [exact Hu1|]. apply in_map_iff.
      exists (u2 ++ AChar 43 :: b). split; [rewrite <- app_assoc; reflexivity|]. apply IH; [discriminate|]. eauto 6.
Qed.
Lemma seq_nonempty : forall s l, l <> [] -> Forall (element_ok s) l -> sequences s l <> [].
Proof.
  intros s l. induction l as [|e l IH]; intros Hn H; [congruence|]. inversion H as [|? ? H1 H2]; subst.
  assert (He : element_atoms s e <> []) by (destruct e; [discriminate|exact H1]). destruct l as [|y l]; [exact He|].
  change (sequences s (e :: y :: l)) with (flat_map (fun a => map (fun b => a ++ AChar 43 :: b) (sequences s (y :: l))) (element_atoms s e)).
  specialize (IH ltac:(discriminate) H2). destruct (element_atoms s e); [congruence|]. destruct (sequences s (y :: l)); [congruence|discriminate].
Qed.
Lemma join_matches : forall a d1 c1 d2 c2 d c, alpha_ok a -> matches a d1 c1 -> matches a d2 c2 ->
  (forall l, In l d <-> exists u x, In u d1 /\ In x d2 /\ l = u ++ [43] ++ x) ->
  (forall al, In al c <-> exists u b, In u c1 /\ In b c2 /\ al = u ++ AChar 43 :: b) -> matches a d c.
Proof.
  intros a d1 c1 d2 c2 d c Ha [A1 A2] [B1 B2] Hd Hc. pose proof (anys a Ha) as (_ & _ & N). split.
  - intros l Hl. apply Hd in Hl as (u & x & Hu & Hx & ->). destruct (A1 _ Hu) as (au & Hau & Eu). destruct (B1 _ Hx) as (ax & Hax & Ex).
    exists (au ++ AChar 43 :: ax). split; [apply Hc; eauto 6|]. rewrite key_join by exact N. rewrite map_app, Eu, Ex. reflexivity.
  - intros al Hl. apply Hc in Hl as (u & x & Hu & Hx & ->). destruct (A2 _ Hu) as (au & Hau & Eu). destruct (B2 _ Hx) as (ax & Hax & Ex).
    exists (au ++ [43] ++ ax). split; [apply Hd; eauto 6|]. rewrite key_join by exact N. rewrite map_app, Eu, Ex. reflexivity.
Qed.
Lemma into_each_ok : forall q, part_ok q -> forall data a, alpha_ok a -> data <> [] ->
  exists a', into_each (pt_lemma q) (tags_text (pt_tags q)) data a = Ok (map (fun v => v ++ [43] ++ map (code a') (part_atoms q)) data, a') /\ grows a a' /\ Forall (atom_ok a') (part_atoms q).
Proof.
  intros q Hq. induction data as [|v data IH]; intros a Ha Hn; [congruence|]. cbn [into_each map]. destruct (part_stored a q Ha Hq) as (a1 & E1 & G1 & O1). rewrite E1. cbn [obind].
  destruct data as [|v2 data].
  - cbn [into_each obind map]. eauto.
  - destruct (IH a1 (proj1 G1)) as (a2 & E2 & G2 & O2); [discriminate|]. rewrite E2. cbn [obind]. destruct (atoms_grow a1 a2 _ (proj1 G1) G2 O1) as [_ <-]. exists a2. split; [reflexivity|]. split; [eapply grows_trans; eauto|exact O2].
Qed.
Definition seq_ok (p : plist) (s : store) (id : Z) (l : list element) : Prop :=
  state_ok p s /\ pl_sequence p = true /\ (l <> [] -> pl_id p = id)
  /\ Forall (good (pl_alpha p)) (sequences s l) /\ matches (pl_alpha p) (pl_data p) (sequences s l).
Lemma label_matches : forall p s k, state_ok p s -> matches (pl_alpha p) (pm_range k (pl_patterns p)) (element_atoms s (ELabel k)) /\ Forall (good (pl_alpha p)) (element_atoms s (ELabel k)).
Proof.
  intros p s k [H1 H2 H3 [H4 H5]].
  assert (E : forall al, In al (element_atoms s (ELabel k)) <-> In (k, al) s).
  { intros al. cbn [element_atoms]. rewrite in_map_iff. split.
    - intros ([k' x] & E & H). apply filter_In in H as [H E2]. apply Z.eqb_eq in E2. cbn in *. subst. exact H.
    - intros H. exists (k, al). split; [reflexivity|]. apply filter_In. split; [exact H|apply Z.eqb_refl]. }
  split; [split|].
  - intros l Hl. apply pm_range_in in Hl. destruct (H4 _ _ Hl) as (al & K1 & K2). exists al. split; [now apply E|exact K2].
  - intros al Hal. apply E in Hal. destruct (H5 _ _ Hal) as (l & K1 & K2). exists l. split; [now apply pm_range_in|exact K2].
  - apply Forall_forall. intros al Hal. apply E in Hal. apply (H3 _ _ Hal).
Qed.
Lemma good_join : forall a u b, alpha_ok a -> good a u -> good a b -> good a (u ++ AChar 43 :: b).
Proof. intros a u b Ha [H1 H2] [H3 H4]. split; [|now apply stem_join]. apply Forall_app. split; [exact H1|]. constructor; [cbn; lia|exact H3]. Qed.
Lemma run_element_ok : forall p s id l e, seq_ok p s id l -> Forall (element_ok s) (l ++ [e]) ->
  exists p', run_element id (Ok p) e = Ok p' /\ seq_ok p' s id (l ++ [e]).
Proof.
  intros p s id l e (H & Hs & Hid & Hg & M) Hok. apply Forall_app in Hok as [Hl He]. apply Forall_inv in He.
  assert (D : l = [] -> pl_data p = []) by (intros ->; destruct M as [M _]; destruct (pl_data p) as [|v d]; [reflexivity|destruct (M v (or_introl eq_refl)) as (al & [] & _)]).
  assert (D' : l <> [] -> pl_data p <> []).
  { intros Hn E. pose proof (seq_nonempty s l Hn Hl) as X. destruct M as [_ M]. destruct (sequences s l) as [|al c]; [congruence|]. destruct (M al (or_introl eq_refl)) as (v & Hv & _). rewrite E in Hv. destruct Hv. }
  assert (LD : l = [] \/ l <> []) by (destruct l; [now left|right; discriminate]).
  destruct e as [q|k]; cbn [run_element obind].
  - unfold insert. rewrite Hs. unfold insertIntoSequence. destruct LD as [El|Nl].
    + rewrite (D El). subst l. destruct (part_stored (pl_alpha p) q (st_alpha _ _ H) He) as (a' & E & G & O). rewrite E. cbn [obind].
      eexists. split; [reflexivity|]. split; [eapply state_grows; eauto|]. cbn [pl_sequence pl_id pl_alpha pl_data app sequences element_atoms]. split; [exact Hs|]. split; [reflexivity|].
      split; [constructor; [split; [exact O|now apply part_stem]|constructor]|].
      split; intros x [<-|[]]; eexists; (split; [now left|apply part_key; [apply G|exact O]]).
    + destruct (into_each_ok q He (pl_data p) (pl_alpha p) (st_alpha _ _ H) (D' Nl)) as (a' & E & G & O). pose proof (D' Nl) as Dn. destruct (pl_data p) as [|v0 d0] eqn:Ed; [congruence|]. rewrite E. cbn [obind].
      eexists. split; [reflexivity|]. split; [eapply state_grows; eauto|]. cbn [pl_sequence pl_id pl_alpha pl_data]. split; [exact Hs|]. split; [reflexivity|].
      pose proof (matches_grows _ _ _ _ (st_alpha _ _ H) G Hg M) as M'.
      assert (Hg' : Forall (good a') (sequences s l)) by (revert Hg; apply Forall_impl; intros al X; now apply (good_grows (pl_alpha p) a' al (st_alpha _ _ H) G)).
      split.
      * apply Forall_forall. intros al Hal. apply seq_snoc in Hal as (u & b & Hu & [<-|[]] & ->); [|exact Nl]. rewrite Forall_forall in Hg'. apply good_join; [apply G|auto|split; [exact O|now apply part_stem]].
      * apply (join_matches a' (v0 :: d0) (sequences s l) [map (code a') (part_atoms q)] [part_atoms q]); [apply G|exact M'| | |].
        -- split; intros x [<-|[]]; eexists; (split; [now left|apply part_key; [apply G|exact O]]).
        -- intros x. rewrite in_map_iff. split; [intros (v & <- & Hv); exists v; eexists; split; [exact Hv|]; split; [now left|reflexivity]|intros (u & y & Hu & [<-|[]] & ->); eauto].
        -- intros al. rewrite seq_snoc by exact Nl. reflexivity.
  - unfold insert_label. rewrite Hs. destruct (label_matches p s k H) as [Mk Gk]. destruct LD as [El|Nl].
    + rewrite (D El). subst l. eexists. split; [reflexivity|]. split; [eapply state_grows; eauto; apply grows_refl, (st_alpha _ _ H)|]. cbn [pl_sequence pl_id pl_alpha pl_data app sequences]. auto.
    + pose proof (D' Nl) as Dn. destruct (pl_data p) as [|v0 d0] eqn:Ed; [congruence|].
      eexists. split; [reflexivity|]. split; [eapply state_grows; eauto; apply grows_refl, (st_alpha _ _ H)|]. cbn [pl_sequence pl_id pl_alpha pl_data]. split; [reflexivity|]. split; [reflexivity|]. split.
      * apply Forall_forall. intros al Hal. apply seq_snoc in Hal as (u & b & Hu & Hb & ->); [|exact Nl]. rewrite Forall_forall in Hg, Gk. apply good_join; [apply (st_alpha _ _ H)|auto|auto].
      * apply (join_matches (pl_alpha p) (v0 :: d0) (sequences s l) (pm_range k (pl_patterns p)) (element_atoms s (ELabel k))); [apply (st_alpha _ _ H)|exact M|exact Mk| |].
        -- intros x. rewrite in_flat_map. split.
           ++ intros (u & Hu & Hx). apply in_map_iff in Hx as (y & <- & Hy). eauto 6.
           ++ intros (u & y & Hu & Hy & ->). exists u. split; [exact Hu|]. apply in_map_iff. eauto.
        -- intros al. rewrite seq_snoc by exact Nl. reflexivity.
Qed.
Lemma run_elements_ok : forall todo p s id l, seq_ok p s id l -> Forall (element_ok s) (l ++ todo) ->
  exists p', fold_left (run_element id) todo (Ok p) = Ok p' /\ seq_ok p' s id (l ++ todo).
Proof.
  induction todo as [|e todo IH]; intros p s id l H Hok; cbn [fold_left]; [exists p; rewrite app_nil_r; auto|].
  replace (l ++ e :: todo) with ((l ++ [e]) ++ todo) in * by now rewrite <- app_assoc.
  destruct (run_element_ok p s id l e H) as (p1 & E1 & H1); [now apply Forall_app in Hok as [Hok _]|]. rewrite E1. now apply IH.
Qed.
Lemma run_rule_ok : forall p s r, state_ok p s -> pl_sequence p = false -> rule_ok s r ->
  exists p', run_rule (Ok p) r = Ok p' /\ pl_sequence p' = false /\ state_ok p' (add_rule s r).
Proof.
  intros p s [id q|id l] H Hs Hr; cbn [run_rule obind]; [now apply run_part|]. unfold beginSequence. rewrite Hs. cbn [obind].
  destruct (run_elements_ok l (mkPL (pl_alpha p) (pl_patterns p) true [] (pl_id p)) s id []) as (p1 & E1 & (H1 & S1 & I1 & G1 & M1)).
  - split; [eapply state_grows; eauto; apply grows_refl, (st_alpha _ _ H)|]. cbn. split; [reflexivity|]. split; [congruence|]. split; [constructor|]. split; intros x [].
  - exact Hr.
  - cbn [app] in *. rewrite E1. cbn [obind]. unfold endSequence. rewrite S1. eexists. split; [reflexivity|]. split; [reflexivity|]. cbn [add_rule].
    assert (Hi : l = [] \/ pl_id p1 = id) by (destruct l; [now left|right; apply I1; discriminate]). destruct Hi as [->| <-].
    + assert (X : pl_data p1 = []) by (destruct M1 as [M1 _]; destruct (pl_data p1) as [|v d]; [reflexivity|destruct (M1 v (or_introl eq_refl)) as (al & [] & _)]).
      rewrite X. cbn [map fold_left sequences]. rewrite app_nil_r. eapply state_grows; eauto. apply grows_refl, (st_alpha _ _ H1).
    + now apply store_ok.
Qed.
Lemma run_rules_from : forall l p s, state_ok p s -> pl_sequence p = false -> rules_ok s l ->
  exists p', fold_left run_rule l (Ok p) = Ok p' /\ state_ok p' (fold_left add_rule l s).
Proof.
  induction l as [|r l IH]; intros p s H Hs Hr; cbn [fold_left]; [eauto|]. destruct Hr as [Hr1 Hr2]. destruct (run_rule_ok p s r H Hs Hr1) as (p1 & E1 & S1 & H1). rewrite E1. now apply IH.
Qed.
Theorem run_rules_ok : forall l, rules_ok [] l -> exists p, run_rules l = Ok p /\ state_ok p (patterns_of l).
Proof.
  intros l H. unfold run_rules, patterns_of. apply run_rules_from; auto. constructor.
  - pose proof (new_inv) as [N _]. unfold new_plist. cbn [pl_alpha].
    pose proof (include_inv ANY_TAG _ N) as N1. pose proof (include_inv ANY_CHAR _ N1) as N2. pose proof (include_inv QUEUE _ N2) as N3. split; [exact N3|]. vm_compute. tauto.
  - constructor.
  - intros id al [].
  - split; intros id x [].
Qed.

(** * The conditions of the automaton *)
Definition beginning (a : alphabet) (s : store) (k : list Z) : Prop := k = [] \/ exists id al r, In (id, al) s /\ map (code a) al = k ++ r.
Section Conditions.
  Context (a : alphabet) (s : store).
  Hypothesis Ha : alpha_ok a.
  Hypothesis Hg : forall id al, In (id, al) s -> good a al.
  Hypothesis Hc : compatible s.
  Notation Bk := (beginning a s).
  Lemma beg_prefix : forall k v, Bk (k ++ [v]) -> Bk k.
  Proof. intros k v [E|(id & al & r & H & E)]; [destruct k; discriminate E|]. right. exists id, al, (v :: r). rewrite E, <- app_assoc. auto. Qed.
  Lemma codes_eq : forall x y, Forall (atom_ok a) x -> Forall (atom_ok a) y -> map (code a) x = map (code a) y -> x = y.
  Proof.
    pose proof (anys a Ha) as (N1 & N2 & N3).
    induction x as [|u x IH]; intros [|v y] Hx Hy E; try discriminate E; [reflexivity|]. cbn [map] in E. injection E as E1 E2. inversion Hx; inversion Hy; subst. f_equal; [|auto].
    apply (code_inj a) with (x := u) (y := v); auto; try lia; [intros n; now apply tc_neg|intros n m; now apply tc_inj].
  Qed.
  (** a beginning and the next symbols come from atoms *)
  Lemma beg_atoms : forall k m, m <> [] -> Bk (k ++ m) -> exists id al x y r, In (id, al) s /\ al = x ++ y ++ r /\ map (code a) x = k /\ map (code a) y = m /\ Forall (atom_ok a) al /\ stem al.
  Proof.
    intros k m Hm [E|(id & al & r & H & E)]; [apply app_eq_nil in E as [_ E]; congruence|]. rewrite <- app_assoc in E. destruct (Hg _ _ H) as [G1 G2].
    assert (Sp : forall l u v, map (code a) l = u ++ v -> exists x y, l = x ++ y /\ map (code a) x = u /\ map (code a) y = v).
    { clear. induction l as [|z l IH]; intros u v E; [symmetry in E; apply app_eq_nil in E as [-> ->]; exists [], []; auto|]. destruct u as [|w u]; [exists [], (z :: l); auto|].
      cbn [map app] in E. injection E as E1 E2. apply IH in E2 as (x & y & -> & <- & <-). exists (z :: x), y. cbn [app map]. rewrite E1. auto. }
    apply Sp in E as (x & y & -> & E1 & E2). apply Sp in E2 as (y1 & y2 & -> & E2 & E3). exists id, (x ++ y1 ++ y2), x, y1, y2. auto 8.
  Qed.
  Lemma beg_c1 : forall k v, any a v -> Bk (k ++ [v; v]) -> False.
  Proof.
    intros k v Hv H. apply beg_atoms in H as (id & al & x & y & r & Hi & -> & _ & Ey & O & St); [|discriminate].
    destruct y as [|y1 [|y2 [|]]]; try discriminate Ey. cbn [map] in Ey. injection Ey as E1 E2. apply Forall_app in O as [_ O]. cbn [app] in O. inversion O as [|? ? O1 O']; inversion O' as [|? ? O2 _]; subst.
    assert (y1 = y2) as <- by (assert ([y1] = [y2]) by (apply codes_eq; auto; cbn; congruence); congruence).
    destruct St as (_ & _ & _ & _ & _ & _ & _ & _ & C). cbn [app] in C. apply chain_app in C as (_ & C & _).
    assert (AA : forall z, atom_ok a z -> any a (code a z) -> z = AAnyChar \/ z = AAnyTag).
    { intros z Hz [E|E]; [left|right].
      - assert (X : [z] = [AAnyChar]) by (apply codes_eq; [auto|repeat constructor|cbn [map code]; now rewrite E]). congruence.
      - assert (X : [z] = [AAnyTag]) by (apply codes_eq; [auto|repeat constructor|cbn [map code]; now rewrite E]). congruence. }
    destruct (AA y1 O1 Hv) as [->| ->]; cbn [adj] in C.
    - destruct C as [[]|(c & C)]; discriminate.
    - destruct C as [(n & C)|[C|C]]; discriminate.
  Qed.
  Lemma last_tag : forall x y r, stem (x ++ AQueue :: r) -> y = AQueue -> exists x' z, x = x' ++ [z] /\ tag_like z.
  Proof.
    intros x y r (h & t & u & w & E1 & _ & Hh & _ & C) _. destruct (snoc_case x) as [->|(x' & z & ->)]; [cbn in E1; injection E1 as <- _; destruct Hh|].
    exists x', z. split; [reflexivity|]. rewrite <- app_assoc in C. cbn [app] in C. apply chain_app in C as (_ & C & _). destruct z; cbn [adj tag_like] in *; auto.
    - destruct C as [[]|[]].
    - destruct C as [[]|(c & C)]; discriminate.
    - discriminate.
  Qed.
  Lemma as_queue : forall y, atom_ok a y -> code a y = symbol_code QUEUE a -> y = AQueue.
  Proof. intros y Hy E. now apply (code_queue a y Ha Hy). Qed.
  Lemma beg_c2 : forall k v, Bk (k ++ [symbol_code QUEUE a]) -> Bk (k ++ [v]) -> ~ qmark v.
  Proof.
    intros k v H1 H2 Q. apply beg_atoms in H1 as (id & al & x & y & r & Hi & -> & Ek & Ey & O & St); [|discriminate]. apply beg_atoms in H2 as (id2 & al2 & x2 & y2 & r2 & Hi2 & -> & Ek2 & Ey2 & O2 & St2); [|discriminate].
    destruct y as [|y1 [|]]; try discriminate Ey. destruct y2 as [|z1 [|]]; try discriminate Ey2. injection Ey as Ey. injection Ey2 as Ey2. cbn [app] in *.
    apply Forall_app in O as [Ox O]. apply Forall_inv in O. apply Forall_app in O2 as [Ox2 O2]. apply Forall_inv in O2.
    assert (x2 = x) as -> by (apply codes_eq; auto; congruence). apply as_queue in Ey as ->; [|exact O].
    destruct (last_tag x AQueue r St eq_refl) as (x' & z & -> & Hz). destruct St2 as (_ & _ & _ & _ & _ & _ & _ & _ & C). rewrite <- app_assoc in C. cbn [app] in C. apply chain_app in C as (_ & C & _).
    apply qmark_gt in Q as Qp. assert (Hz1 : z1 = AChar 43 \/ code a z1 < 0).
    { pose proof (anys a Ha) as (N1 & N2 & N3). assert (T : tag_like z1 -> code a z1 < 0) by (destruct z1; try contradiction; intros _; cbn [code]; [apply tc_neg; [exact Ha|apply O2]|exact N2]).
      destruct z; try contradiction; cbn [adj] in C.
      - destruct C as [C|[->| ->]]; auto.
      - destruct C as [(n & ->)|[->| ->]]; auto 6. }
    destruct Hz1 as [->|Hz1]; [|lia]. cbn [code] in Ey2. subst v. destruct Q as [Q|[Q|[Q|[]]]]; discriminate.
  Qed.
  Lemma beg_queue : forall k v, Bk (k ++ [symbol_code QUEUE a; v]) -> v = 43 /\ exists id al x r, In (id, al) s /\ al = x ++ [AQueue; AChar 43] ++ r /\ map (code a) x = k /\ Forall (atom_ok a) al.
  Proof.
    intros k v H. apply beg_atoms in H as (id & al & x & y & r & Hi & -> & Ek & Ey & O & St); [|discriminate]. destruct y as [|y1 [|y2 [|]]]; try discriminate Ey. cbn [map] in Ey. injection Ey as E1 E2. cbn [app] in *.
    pose proof O as O0. apply Forall_app in O as [_ O]. inversion O as [|? ? O1 O']; subst. apply as_queue in E1 as ->; [|exact O1].
    destruct St as (_ & _ & _ & _ & _ & _ & _ & _ & C). apply chain_app in C as (_ & C & _). cbn [adj] in C. subst y2. split; [reflexivity|]. exists id, (x ++ AQueue :: AChar 43 :: r), x, r. auto.
  Qed.
  Lemma beg_c3 : forall k v, Bk (k ++ [symbol_code QUEUE a; v]) -> ~ any a v /\ ~ qmark v /\ v <> symbol_code QUEUE a.
  Proof.
    intros k v H. apply beg_queue in H as [-> _]. pose proof (anys a Ha) as (N1 & N2 & N3). split; [intros [E|E]; lia|]. split; [intros [E|[E|[E|[]]]]; discriminate|lia].
  Qed.
  Lemma beg_c4 : forall k v, Bk (k ++ [symbol_code QUEUE a; v]) -> Bk (k ++ [v]) -> False.
  Proof.
    intros k v H1 H2. apply beg_queue in H1 as [-> (id & al & x & r & Hi & -> & Ek & O)]. apply beg_atoms in H2 as (id2 & al2 & x2 & y2 & r2 & Hi2 & -> & Ek2 & Ey2 & O2 & _); [|discriminate].
    destruct y2 as [|z1 [|]]; try discriminate Ey2. injection Ey2 as Ey2. cbn [app] in *. apply Forall_app in O as [Ox O]. apply Forall_app in O2 as [Ox2 O2]. apply Forall_inv in O2.
    assert (x2 = x) as -> by (apply codes_eq; auto; congruence).
    assert ([z1] = [AChar 43]) as Ez by (apply codes_eq; [auto|repeat constructor|cbn; congruence]). injection Ez as ->.
    apply (Hc x).
    - exists id, r. rewrite <- app_assoc. exact Hi.
    - exists id2, r2. rewrite <- app_assoc. exact Hi2.
  Qed.
End Conditions.
