(** Proofs about the expander: products of choices, entries, dictionaries. *)
From Coq Require Import Permutation.
From Verif Require Import Base AlphabetModel ExpanderModel ExpanderSpec.

(** * Products *)
Lemma flat_map_flat_map : forall A B C (f : B -> list C) (g : A -> list B) l,
  flat_map f (flat_map g l) = flat_map (fun a => flat_map f (g a)) l.
Proof. intros A B C f g l. induction l; cbn; auto. now rewrite flat_map_app, IHl. Qed.
Lemma follow_assoc : forall x a b, flat_map (fun c => follow c b) (follow x a) = flat_map (follow x) (follow a b).
Proof.
  intros [[d l] r] [[d' l'] r'] [[d'' l''] r'']. unfold follow.
  destruct d, d', d''; cbn [meet flat_map app]; rewrite ?app_assoc; reflexivity.
Qed.
Lemma product_assoc : forall X A B, product (product X A) B = product X (product A B).
Proof.
  intros X A B. unfold product. rewrite flat_map_flat_map. apply flat_map_ext. intros x.
  rewrite !flat_map_flat_map. apply flat_map_ext. intros a.
  rewrite flat_map_flat_map. rewrite <- (flat_map_ext _ _ (follow_assoc x a)).
  destruct (follow x a) as [|c [|c' t]] eqn:E; cbn [flat_map].
  - induction B; cbn; auto.
  - rewrite app_nil_r. apply flat_map_ext. intros b. now rewrite app_nil_r.
  - exfalso. destruct x as [[d l] r], a as [[e l'] r']. unfold follow in E. destruct (meet d e); discriminate.
Qed.
Lemma product_app : forall X X' A, product (X ++ X') A = product X A ++ product X' A.
Proof. intros. unfold product. apply flat_map_app. Qed.
Lemma product_unit : forall X, product X [(Both, [], [])] = X.
Proof.
  intros X. unfold product. transitivity (flat_map (fun x : expansion => [x]) X).
  - apply flat_map_ext. intros [[d l] r]. cbn [flat_map follow]. destruct d; cbn [meet app]; now rewrite !app_nil_r.
  - induction X; cbn; auto. now rewrite IHX.
Qed.
Lemma product_perm : forall X X' A A', Permutation X X' -> Permutation A A' -> Permutation (product X A) (product X' A').
Proof.
  intros X X' A A' H H'. transitivity (product X' A).
  - unfold product. now apply Permutation_flat_map.
  - clear H. unfold product. induction X' as [|x X' IH]; cbn [flat_map]; auto.
    apply Permutation_app; auto. now apply Permutation_flat_map.
Qed.

(** * The three lists *)
Definition marked (d : direction) (l : entlist) : list expansion := map (fun p => (d, fst p, snd p)) l.
Definition tagged (x : lists) : list expansion := marked Both (both x) ++ marked LR (only_lr x) ++ marked RL (only_rl x).

Lemma marked_app : forall d a b, marked d (a ++ b) = marked d a ++ marked d b.
Proof. intros. apply map_app. Qed.
Lemma follow_marked : forall d e f l r B, meet d e = Some f ->
  flat_map (follow (d, l, r)) (marked e B) = marked f (map (fun p => (l ++ fst p, r ++ snd p)) B).
Proof.
  intros d e f l r B H. unfold marked. rewrite map_map. induction B as [|[l' r'] B IH]; [reflexivity|].
  cbn [map flat_map fst snd]. rewrite IH. cbn [follow]. rewrite H. reflexivity.
Qed.
Lemma product_marked : forall d e f A B, meet d e = Some f -> product (marked d A) (marked e B) = marked f (append_list A B).
Proof.
  intros d e f A B H. induction A as [|[l r] A IH]; [reflexivity|].
  change (append_list ((l, r) :: A) B) with (map (fun p => (l ++ fst p, r ++ snd p)) B ++ append_list A B).
  rewrite marked_app, <- IH, <- (follow_marked d e f l r B H). reflexivity.
Qed.
Lemma product_none : forall d e A B, meet d e = None -> product (marked d A) (marked e B) = [].
Proof.
  intros d e A B H. induction A as [|[l r] A IH]; [reflexivity|].
  change (product (marked d ((l, r) :: A)) (marked e B)) with (flat_map (follow (d, l, r)) (marked e B) ++ product (marked d A) (marked e B)).
  rewrite IH, app_nil_r. clear IH. induction B as [|[l' r'] B IH]; [reflexivity|]. cbn [marked map flat_map follow fst snd]. rewrite H. exact IH.
Qed.
Lemma product_r_app : forall X A B, Permutation (product X (A ++ B)) (product X A ++ product X B).
Proof.
  intros X A B. unfold product. induction X as [|x X IH]; cbn [flat_map]; auto. rewrite flat_map_app.
  rewrite IH. rewrite <- !app_assoc. apply Permutation_app_head. rewrite !app_assoc. apply Permutation_app_tail. apply Permutation_app_comm.
Qed.
Lemma product_nil_r : forall X, product X [] = [].
Proof. intros X. unfold product. induction X; cbn; auto. Qed.
Lemma append_all_tagged : forall x l r, tagged (append_all x (l, r)) = product (tagged x) [(Both, l, r)].
Proof.
  intros x l r. unfold tagged. rewrite !product_app.
  assert (K : forall d A, marked d (append_pair A (l, r)) = product (marked d A) [(Both, l, r)]).
  { intros d A. assert (E : [(Both, l, r)] = marked Both [(l, r)]) by reflexivity. rewrite E.
    rewrite (product_marked d Both d) by (destruct d; reflexivity). reflexivity. }
  cbn [append_all both only_lr only_rl]. now rewrite !K.
Qed.
Lemma marked_In : forall d l x, In x (marked d l) -> fst (fst x) = d.
Proof. intros d l x H. apply in_map_iff in H as (p & <- & _). reflexivity. Qed.
Lemma tagged_both : forall x, (forall y, In y (tagged x) -> fst (fst y) = Both) -> only_lr x = [] /\ only_rl x = [].
Proof.
  intros x H. split.
  - destruct (only_lr x) as [|p l] eqn:E; auto. assert (K : fst (fst (LR, fst p, snd p)) = Both).
    { apply H. unfold tagged. rewrite E. apply in_or_app. right. apply in_or_app. left. now left. }
    discriminate K.
  - destruct (only_rl x) as [|p l] eqn:E; auto. assert (K : fst (fst (RL, fst p, snd p)) = Both).
    { apply H. unfold tagged. rewrite E. apply in_or_app. right. apply in_or_app. right. now left. }
    discriminate K.
Qed.

(** A paradigm appended: always part of the product, and all of it in the three cases. *)
Lemma par_lr : forall a p x, at_r a = LR_val -> both x = [] -> only_rl x = [] ->
  match append_par a p x with
  | None => product (tagged x) (tagged p) = [] /\ (forall y, In y (tagged p) -> fst (fst y) = RL)
  | Some z => Permutation (tagged z) (product (tagged x) (tagged p)) /\ both z = [] /\ only_rl z = []
  end.
Proof.
  intros a p x Ha Hb Hr. unfold append_par. rewrite Ha. unfold ueq at 1. destruct (ustr_eq_dec LR_val LR_val); [|congruence].
  assert (E : tagged x = marked LR (only_lr x)) by (unfold tagged; rewrite Hb, Hr; cbn; now rewrite app_nil_r).
  assert (Pm : Permutation (product (tagged x) (tagged p)) (marked LR (append_list (only_lr x) (only_lr p) ++ append_list (only_lr x) (both p)))).
  { rewrite E. unfold tagged at 1. rewrite product_r_app, (product_r_app _ (marked LR _)).
    rewrite (product_marked LR Both LR), (product_marked LR LR LR), (product_none LR RL) by reflexivity.
    rewrite app_nil_r, marked_app. apply Permutation_app_comm. }
  assert (Some_case : Permutation (tagged (mkL (both x) (append_list (only_lr x) (only_lr p) ++ append_list (only_lr x) (both p)) (only_rl x)))
    (product (tagged x) (tagged p)) /\ both (mkL (both x) (append_list (only_lr x) (only_lr p) ++ append_list (only_lr x) (both p)) (only_rl x)) = []
    /\ only_rl (mkL (both x) (append_list (only_lr x) (only_lr p) ++ append_list (only_lr x) (both p)) (only_rl x)) = []).
  { cbn [both only_rl]. split; [|auto]. rewrite Pm. unfold tagged. cbn [both only_lr only_rl]. rewrite Hb, Hr. cbn [marked map app].
    now rewrite app_nil_r. }
  destruct (both p) as [|b bs] eqn:Eb; [|exact Some_case]. destruct (only_lr p) as [|c cs] eqn:Ec; [|exact Some_case].
  split.
  - assert (N : append_list (only_lr x) [] = []) by (unfold append_list; clear; induction (only_lr x); cbn; auto).
    rewrite N in Pm. cbn in Pm. now apply Permutation_sym, Permutation_nil in Pm.
  - unfold tagged. rewrite Eb, Ec. cbn [marked map app]. apply marked_In.
Qed.
Lemma par_rl : forall a p x, at_r a = RL_val -> both x = [] -> only_lr x = [] ->
  match append_par a p x with
  | None => product (tagged x) (tagged p) = [] /\ (forall y, In y (tagged p) -> fst (fst y) = LR)
  | Some z => Permutation (tagged z) (product (tagged x) (tagged p)) /\ both z = [] /\ only_lr z = []
  end.
Proof.
  intros a p x Ha Hb Hr. unfold append_par. rewrite Ha. unfold ueq at 1. destruct (ustr_eq_dec RL_val LR_val); [discriminate|].
  unfold ueq at 1. destruct (ustr_eq_dec RL_val RL_val); [|congruence].
  assert (E : tagged x = marked RL (only_rl x)) by (unfold tagged; rewrite Hb, Hr; reflexivity).
  assert (Pm : Permutation (product (tagged x) (tagged p)) (marked RL (append_list (only_rl x) (only_rl p) ++ append_list (only_rl x) (both p)))).
  { rewrite E. unfold tagged at 1. rewrite product_r_app, (product_r_app _ (marked LR _)).
    rewrite (product_marked RL Both RL), (product_marked RL RL RL), (product_none RL LR) by reflexivity.
    cbn [app]. rewrite marked_app. apply Permutation_app_comm. }
  assert (Some_case : Permutation (tagged (mkL (both x) (only_lr x) (append_list (only_rl x) (only_rl p) ++ append_list (only_rl x) (both p))))
    (product (tagged x) (tagged p)) /\ both (mkL (both x) (only_lr x) (append_list (only_rl x) (only_rl p) ++ append_list (only_rl x) (both p))) = []
    /\ only_lr (mkL (both x) (only_lr x) (append_list (only_rl x) (only_rl p) ++ append_list (only_rl x) (both p))) = []).
  { cbn [both only_lr]. split; [|auto]. rewrite Pm. unfold tagged. cbn [both only_lr only_rl]. rewrite Hb, Hr. reflexivity. }
  destruct (both p) as [|b bs] eqn:Eb; [|exact Some_case]. destruct (only_rl p) as [|c cs] eqn:Ec; [|exact Some_case].
  split.
  - assert (N : append_list (only_rl x) [] = []) by (unfold append_list; clear; induction (only_rl x); cbn; auto).
    rewrite N in Pm. cbn in Pm. now apply Permutation_sym, Permutation_nil in Pm.
  - unfold tagged. rewrite Eb, Ec. cbn [marked map app]. rewrite app_nil_r. apply marked_In.
Qed.
Lemma par_both : forall a p x, at_r a <> LR_val -> at_r a <> RL_val -> only_lr x = [] -> only_rl x = [] ->
  exists z, append_par a p x = Some z /\ Permutation (tagged z) (product (tagged x) (tagged p))
    /\ (only_lr p = [] -> only_rl p = [] -> only_lr z = [] /\ only_rl z = []).
Proof.
  intros a p x H1 H2 Hl Hr. unfold append_par, ueq. destruct (ustr_eq_dec (at_r a) LR_val); [congruence|].
  destruct (ustr_eq_dec (at_r a) RL_val); [congruence|]. eexists. split; [reflexivity|].
  assert (E : tagged x = marked Both (both x)) by (unfold tagged; rewrite Hl, Hr; cbn; now rewrite app_nil_r).
  assert (L : forall q, append_list match q with [] => @nil (ustr * ustr) | _ :: _ => both x end q = append_list (both x) q).
  { intros [|q qs]; auto. unfold append_list. cbn. clear. induction (both x); cbn; auto. }
  split.
  - rewrite E. unfold tagged at 1 2. cbn [both only_lr only_rl]. rewrite product_r_app, (product_r_app _ (marked LR _)).
    rewrite (product_marked Both Both Both), (product_marked Both LR LR), (product_marked Both RL RL) by reflexivity.
    rewrite Hl, Hr. cbn [app]. rewrite !L. reflexivity.
  - intros -> ->. cbn [only_lr only_rl]. rewrite Hl, Hr. auto.
Qed.

(** * Entries *)
Definition models (ps : paradigms) (E : env) : Prop :=
  forall n, E n <> [] -> exists p, par_find n ps = Some p /\ Permutation (tagged p) (E n).
Definition is_par (el : element) : Prop := exists n, el = EPar n.
Definition mode (a : attributes) (els : list element) (x : lists) : Prop :=
  (at_r a = LR_val /\ both x = [] /\ only_rl x = [])
  \/ (at_r a = RL_val /\ both x = [] /\ only_lr x = [])
  \/ (at_r a <> LR_val /\ at_r a <> RL_val /\ ((only_lr x = [] /\ only_rl x = []) \/ forall n, ~ In (EPar n) els)).
Record conditions (E : env) (a : attributes) (els : list element) : Prop := {
  c_defined : forall n, In (EPar n) els -> E n <> [];
  c_lr : at_r a = LR_val -> forall pre n post, els = pre ++ EPar n :: post -> post <> [] ->
    exists d l r, In (d, l, r) (E n) /\ d <> RL;
  c_rl : at_r a = RL_val -> forall pre n post, els = pre ++ EPar n :: post -> post <> [] ->
    exists d l r, In (d, l, r) (E n) /\ d <> LR;
}.
Lemma conditions_tail : forall E a el els, conditions E a (el :: els) -> conditions E a els.
Proof.
  intros E a el els [H1 H2 H3]. split.
  - intros n Hn. apply H1. now right.
  - intros Ha pre n post -> Hp. apply (H2 Ha (el :: pre) n post); auto.
  - intros Ha pre n post -> Hp. apply (H3 Ha (el :: pre) n post); auto.
Qed.
Definition both_only (E : env) (a : attributes) (els : list element) : Prop :=
  at_r a <> LR_val -> at_r a <> RL_val -> forall pre n mid m post, els = pre ++ EPar n :: mid ++ EPar m :: post ->
  forall x, In x (E n) -> fst (fst x) = Both.

(** Texts *)
Lemma special_dec : forall c, if text_escaped c then special c else ~ special c.
Proof.
  intros c. unfold text_escaped. destruct (existsb (Z.eqb c) _) eqn:E.
  - apply existsb_exists in E as (d & Hd & E). apply Z.eqb_eq in E. now subst d.
  - intros H. assert (K : existsb (Z.eqb c) [94; 36; 47; 60; 62; 123; 125; 92; 42; 64; 35; 43; 126; 58] = true)
      by (apply existsb_exists; exists c; split; [exact H|apply Z.eqb_refl]). congruence.
Qed.
Lemma spells_rest : forall t s, spells t s -> t = flat_map (fun c => if text_escaped c then [92; c] else [c]) s.
Proof.
  intros t s H. induction H as [|c t s E H IH|c t s E H IH]; cbn [flat_map]; auto; pose proof (special_dec c) as D;
    destruct (text_escaped c); cbn [app]; try contradiction; congruence.
Qed.
Lemma spells_readString : forall keep s t, plain_start (PText s) -> spells t s -> readString keep (PText s) = Ok t.
Proof.
  intros keep s t [Hne Hs] H. destruct s as [|c s]; [congruence|]. cbn [hd] in Hs. inversion H; subst; [|contradiction].
  cbn [readString escape_text]. f_equal. f_equal. symmetry. now apply spells_rest.
Qed.
Lemma shown_readString : forall keep p t, plain_start p -> shown keep p t -> readString keep p = Ok t.
Proof.
  intros keep p t Hp H. destruct H; subst; try reflexivity. now apply spells_readString.
Qed.
Lemma written_readStrings : forall keep l t, Forall plain_start l -> written keep l t -> readStrings keep l = Ok t.
Proof.
  intros keep l t Hp (ts & H & ->). induction H as [|p t l ts H1 H IH]; [reflexivity|]. inversion Hp; subst.
  cbn [readStrings concat]. rewrite (shown_readString keep p t) by auto. cbn [obind]. rewrite IH by auto. reflexivity.
Qed.
Lemma re_special_dec : forall c, re_escaped c = true <-> special c /\ c <> 92.
Proof.
  intros c. unfold re_escaped. rewrite existsb_exists. split.
  - intros (d & Hd & E). apply Z.eqb_eq in E. subst d. unfold special. cbn [In] in *. lia.
  - intros [H N]. exists c. split; [|apply Z.eqb_refl]. unfold special in H. cbn [In] in *. lia.
Qed.
Lemma re_spells_procRegexp : forall t s, re_spells t s -> procRegexp false s = t.
Proof.
  intros t s H. induction H as [| |c t s H IH|c t s E H IH|c t s E N H IH]; try reflexivity.
  - cbn [procRegexp]. change (re_escaped 92) with false. cbn match. change (92 =? 92) with true. cbn match. now rewrite IH.
  - cbn [procRegexp]. destruct (re_escaped c) eqn:D; [apply re_special_dec in D; tauto|].
    destruct (Z.eqb_spec c 92) as [->|]; [exfalso; apply E; unfold special; cbn; tauto|]. now rewrite IH.
  - cbn [procRegexp]. destruct (re_escaped c) eqn:D; [now rewrite IH|]. assert (K : re_escaped c = true) by (apply re_special_dec; auto). congruence.
Qed.
Lemma spells_functional : forall t s t', spells t s -> spells t' s -> t = t'.
Proof. intros t s t' H H'. apply spells_rest in H, H'. congruence. Qed.
Lemma written_functional : forall keep l t t', written keep l t -> written keep l t' -> t = t'.
Proof.
  intros keep l t t' (ts & H & ->) (ts' & H' & ->). f_equal. revert ts' H'.
  induction H as [|p t l ts H1 H IH]; intros ts' H'; inversion H' as [|? t' ? ts'' H1' H'']; subst; [reflexivity|].
  f_equal; auto. destruct H1; inversion H1'; subst; try reflexivity; try congruence. eapply spells_functional; eauto.
Qed.
Lemma literal_step : forall o ps a el l r more x, plain_starts el -> literal o el l r ->
  proc_elements o ps a (el :: more) x = proc_elements o ps a more (append_all x (l, r)).
Proof.
  intros o ps a el l r more x P H. destruct el; cbn [literal] in H; cbn [plain_starts] in P; try contradiction; cbn [proc_elements].
  - destruct H as [H ->]. now rewrite (written_readStrings _ _ _ P H).
  - destruct H as [H ->]. now rewrite (written_readStrings _ _ _ P H).
  - destruct H as [H H'], P as [P P']. rewrite (written_readStrings _ _ _ P H). cbn [obind]. now rewrite (written_readStrings _ _ _ P' H').
  - destruct H as (t & H & -> & ->). now rewrite (re_spells_procRegexp _ _ H).
Qed.
Lemma append_all_mode : forall a el els x l r, mode a (el :: els) x -> mode a els (append_all x (l, r)).
Proof.
  intros a el els x l r [(H & H1 & H2)|[(H & H1 & H2)|(H & H' & H2)]].
  - left. split; auto. cbn [append_all both only_rl]. now rewrite H1, H2.
  - right. left. split; auto. cbn [append_all both only_lr]. now rewrite H1, H2.
  - right. right. split; auto. split; auto. destruct H2 as [[H1 H2]|H2].
    + left. cbn [append_all only_lr only_rl]. now rewrite H1, H2.
    + right. intros n Hn. apply (H2 n). now right.
Qed.
Lemma elements_spec : forall o ps E a, models ps E -> forall els X, choices o E els X -> Forall plain_starts els ->
  forall x, conditions E a els -> mode a els x -> (only_lr x = [] -> only_rl x = [] -> both_only E a els) ->
  exists res, proc_elements o ps a els x = Ok res
    /\ match res with
       | None => product (tagged x) X = []
       | Some z => Permutation (tagged z) (product (tagged x) X)
       end.
Proof.
  intros o ps E a Hm els X Hc. induction Hc as [|el l r els X Hl Hc IH|n els X Hc IH]; intros Pl x C M B;
    [|inversion Pl as [|? ? Pe Pes]; subst; specialize (IH Pes)..].
  - exists (Some x). split; [reflexivity|]. now rewrite product_unit.
  - rewrite (literal_step o ps a el l r els x Pe Hl).
    destruct (IH (append_all x (l, r))) as (res & E1 & E2).
    + eapply conditions_tail; eauto.
    + eapply append_all_mode; eauto.
    + intros N1 N2 Ha Hb pre n mid m post ->. apply (B ltac:(destruct x as [? [|] ?]; [reflexivity|discriminate N1])
        ltac:(destruct x as [? ? [|]]; [reflexivity|discriminate N2]) Ha Hb (el :: pre) n mid m post). reflexivity.
    + exists res. split; auto. rewrite append_all_tagged, product_assoc in E2. exact E2.
  - cbn [proc_elements]. destruct (Hm n) as (p & Hp & Pp). { apply (c_defined _ _ _ C). now left. }
    rewrite Hp. rewrite <- product_assoc.
    assert (Perm : Permutation (product (tagged x) (tagged p)) (product (tagged x) (E n))) by (apply product_perm; auto).
    assert (Next : forall z, Permutation (tagged z) (product (tagged x) (tagged p)) -> mode a els z ->
      (only_lr z = [] -> only_rl z = [] -> both_only E a els) ->
      exists res, proc_elements o ps a els z = Ok res /\ match res with
       | None => product (product (tagged x) (E n)) X = []
       | Some z => Permutation (tagged z) (product (product (tagged x) (E n)) X)
       end).
    { intros z Hz Mz Bz. destruct (IH z) as (res & E1 & E2); auto. { eapply conditions_tail; eauto. }
      exists res. split; auto. assert (Pz : Permutation (product (tagged z) X) (product (product (tagged x) (E n)) X)).
      { apply product_perm; [|reflexivity]. rewrite Hz. exact Perm. }
      destruct res as [z'|]; [rewrite E2; exact Pz|]. rewrite E2 in Pz. now apply Permutation_nil in Pz. }
    assert (Tail : both_only E a (EPar n :: els) -> both_only E a els).
    { intros H Ha Hb pre k mid m post ->. apply (H Ha Hb (EPar n :: pre) k mid m post). reflexivity. }
    assert (Done : product (tagged x) (tagged p) = [] -> product (product (tagged x) (E n)) X = []).
    { intros H. rewrite H in Perm. apply Permutation_nil in Perm. rewrite Perm. reflexivity. }
    destruct M as [(Ha & M1 & M2)|[(Ha & M1 & M2)|(Ha & Hb & M)]].
    + pose proof (par_lr a p x Ha M1 M2) as K. destruct (append_par a p x) as [z|].
      * destruct K as (K1 & K2 & K3). apply Next; auto. { left. auto. } intros _ _ H. congruence.
      * destruct K as [K1 K2]. destruct els as [|e els].
        -- exists None. split; [reflexivity|]. now apply Done.
        -- exfalso. destruct (c_lr _ _ _ C Ha [] n (e :: els) eq_refl ltac:(discriminate)) as (d & l & r & Hin & Hd).
           apply Hd. apply (K2 (d, l, r)). eapply Permutation_in; [apply Permutation_sym; exact Pp|exact Hin].
    + pose proof (par_rl a p x Ha M1 M2) as K. destruct (append_par a p x) as [z|].
      * destruct K as (K1 & K2 & K3). apply Next; auto. { right. left. auto. } intros _ _ H. congruence.
      * destruct K as [K1 K2]. destruct els as [|e els].
        -- exists None. split; [reflexivity|]. now apply Done.
        -- exfalso. destruct (c_rl _ _ _ C Ha [] n (e :: els) eq_refl ltac:(discriminate)) as (d & l & r & Hin & Hd).
           apply Hd. apply (K2 (d, l, r)). eapply Permutation_in; [apply Permutation_sym; exact Pp|exact Hin].
    + destruct M as [[M1 M2]|M]; [|exfalso; apply (M n); now left].
      destruct (par_both a p x Ha Hb M1 M2) as (z & Ez & K1 & K2). rewrite Ez. apply Next; auto.
      right. right. split; auto. split; auto.
      assert (Dec : (forall k, ~ In (EPar k) els) \/ exists k, In (EPar k) els).
      { clear. induction els as [|e els IH]; [left; intros k []|]. destruct IH as [IH|[k IH]].
        - destruct e; try (left; intros k [H|H]; [discriminate|apply (IH k H)]). right. exists name. now left.
        - right. exists k. now right. }
      destruct Dec as [Dec|[k Dec]]; [now right|left]. apply in_split in Dec as (mid & post & Es).
      apply K2; apply (tagged_both p); intros y Hy;
      (eapply (B M1 M2 Ha Hb [] n mid k post); [cbn [app]; now rewrite Es|eapply Permutation_in; [exact Pp|exact Hy]]).
Qed.

(** * Attributes *)
Definition mm (value wanted : ustr) : bool := negb (uempty value) && negb (ueq value wanted).
Lemma ueq_spec : forall a b, reflect (a = b) (ueq a b).
Proof. intros a b. unfold ueq. destruct (ustr_eq_dec a b); constructor; auto. Qed.
Lemma mm_spec : forall v w, reflect (mismatch v w) (mm v w).
Proof.
  intros v w. unfold mm, mismatch. destruct v as [|c v]; cbn [uempty negb andb].
  - constructor. intros [H _]. now apply H.
  - destruct (ueq_spec (c :: v) w); cbn [negb]; constructor; [tauto|split; [discriminate|auto]].
Qed.
Ltac attributes := repeat match goal with
  | |- context [ueq ?a ?b] => destruct (ueq_spec a b)
  | |- context [mm ?a ?b] => destruct (mm_spec a b)
  end.
Definition start_of (d : direction) : lists :=
  match d with Both => mkL [([], [])] [] [] | LR => mkL [] [([], [])] [] | RL => mkL [] [] [([], [])] end.
Lemma direction_cases : forall o a, ~ (mismatch (at_v a) (o_v o) /\ mismatch (at_vr a) (o_vr o)) ->
  (skipped o a = true /\ ~ used o a)
  \/ (skipped o a = false /\ used o a /\ exists d, direction_of o a d /\ start_lists o a = start_of d
      /\ (d = Both -> at_r a <> LR_val /\ at_r a <> RL_val) /\ (d = LR -> at_r a <> RL_val) /\ (d = RL -> at_r a <> LR_val)).
Proof.
  intros o a Hx. unfold skipped, start_lists, used, direction_of, for_lr, for_rl.
  repeat match goal with |- context [negb (uempty ?v) && negb (ueq ?v ?w)] => change (negb (uempty v) && negb (ueq v w)) with (mm v w) end.
  assert (N : LR_val <> RL_val) by discriminate.
  destruct (ueq_spec (at_ignore a) yes_val); [left; cbn; tauto|].
  destruct (mm_spec (at_alt a) (o_alt o)); [left; cbn; tauto|].
  destruct (mm_spec (at_v a) (o_v o)), (mm_spec (at_vl a) (o_vl o)), (mm_spec (at_vr a) (o_vr o));
  destruct (ueq_spec (at_r a) RL_val) as [Er|Er], (ueq_spec (at_r a) LR_val) as [El|El]; try congruence; try tauto;
  cbn [orb andb negb];
  first [ left; split; [reflexivity|tauto]
        | right; split; [reflexivity|split; [tauto|first
            [ exists Both; split; [tauto|split; [reflexivity|split; [intros; tauto|split; discriminate]]]
            | exists LR; split; [tauto|split; [reflexivity|split; [discriminate|split; [intros; congruence|discriminate]]]]
            | exists RL; split; [tauto|split; [reflexivity|split; [discriminate|split; [discriminate|intros; congruence]]]] ]]] ].
Qed.
Lemma direction_unique : forall o a d d', direction_of o a d -> direction_of o a d' -> d = d'.
Proof. intros o a [] []; cbn; intros; tauto. Qed.

Definition outcome_of (o : options) (ps : paradigms) (e : attributes * list element) : outcome (option lists) :=
  if skipped o (fst e) then Ok None else proc_elements o ps (fst e) (snd e) (start_lists o (fst e)).
Definition found (res : option lists) : list expansion := match res with Some z => tagged z | None => [] end.
Lemma entry_spec : forall o ps E e X, models ps E -> entry_fine o E e -> entry_expansions o E (fst e) (snd e) X ->
  exists res, outcome_of o ps e = Ok res /\ Permutation (found res) X.
Proof.
  intros o ps E [a els] X Hm [Hx Hf] Hs. cbn [fst snd] in *. unfold outcome_of. cbn [fst snd].
  destruct (direction_cases o a Hx) as [[Es Hu]|(Es & Hu & d & Hd & Est & B1 & B2 & B3)]; rewrite Es.
  - exists None. split; auto. destruct Hs as [_|d X H]; [reflexivity|contradiction].
  - destruct Hs as [H|d' X _ Hd' Hc]; [contradiction|]. assert (d' = d) by (eapply direction_unique; eauto). subst d'.
    destruct (Hf Hu) as (F0 & F1 & F2 & F3 & F4 & F5). rewrite Est.
    assert (Tg : tagged (start_of d) = [(d, [], [])]) by (destruct d; reflexivity).
    assert (Nb : at_r a <> LR_val -> at_r a <> RL_val -> d = Both \/ forall n, ~ In (EPar n) els).
    { intros N1 N2. destruct d; [now left| |]; right; (apply F5; auto; intros K; pose proof (direction_unique _ _ _ _ Hd K); discriminate). }
    destruct (elements_spec o ps E a Hm els X Hc F0 (start_of d)) as (res & E1 & E2).
    + split; auto.
    + unfold mode. destruct (ueq_spec (at_r a) LR_val) as [El|El].
      { left. split; auto. destruct d; [tauto|auto|]. exfalso. now apply B3. }
      destruct (ueq_spec (at_r a) RL_val) as [Er|Er].
      { right. left. split; auto. destruct d; [tauto| |auto]. exfalso. now apply B2. }
      right. right. split; auto. split; auto. destruct (Nb El Er) as [->|N]; [left; auto|now right].
    + intros _ _ N1 N2. destruct (Nb N1 N2) as [->|N]; [exact (F4 Hd)|]. intros pre n mid m post ->. exfalso. apply (N n), in_or_app. right. now left.
    + exists res. split; auto. rewrite Tg in E2. destruct res as [z|]; [exact E2|]. cbn [found]. rewrite E2. constructor.
Qed.

(** * Dictionaries *)
Lemma par_find_add : forall n x ps m, par_find m (par_add n x ps) =
  if ustr_eq_dec m n then Some (match par_find n ps with
                                | Some l => mkL (both l ++ both x) (only_lr l ++ only_lr x) (only_rl l ++ only_rl x)
                                | None => x end)
  else par_find m ps.
Proof.
  intros n x ps m. induction ps as [|[k l] ps IH]; cbn [par_add par_find].
  - destruct (ustr_eq_dec m n); reflexivity.
  - destruct (ustr_eq_dec n k) as [->|Nk]; cbn [par_find].
    + destruct (ustr_eq_dec m k); reflexivity.
    + destruct (ustr_eq_dec m k) as [->|Mk].
      * destruct (ustr_eq_dec k n); [congruence|reflexivity].
      * exact IH.
Qed.
Lemma tagged_add : forall l x, Permutation (tagged (mkL (both l ++ both x) (only_lr l ++ only_lr x) (only_rl l ++ only_rl x))) (tagged l ++ tagged x).
Proof.
  intros l x. unfold tagged. cbn [both only_lr only_rl]. rewrite !marked_app, <- !app_assoc. apply Permutation_app_head.
  set (A := marked Both (both x)). set (B := marked LR (only_lr l)). set (C := marked LR (only_lr x)). set (D := marked RL (only_rl l)).
  set (F := marked RL (only_rl x)).
  transitivity (B ++ A ++ C ++ D ++ F).
  - rewrite !app_assoc. do 3 apply Permutation_app_tail. apply Permutation_app_comm.
  - apply Permutation_app_head. transitivity (D ++ (A ++ C) ++ F).
    + rewrite !app_assoc. apply Permutation_app_tail. rewrite <- !app_assoc. rewrite (app_assoc A C D). apply Permutation_app_comm.
    + now rewrite <- !app_assoc.
Qed.

Lemma expand_app : forall o l l' e, expand_nodes o (l ++ l') e =
  let! (out, e1) := expand_nodes o l e in let! (more, e2) := expand_nodes o l' e1 in Ok (out ++ more, e2).
Proof.
  intros o l. induction l as [|n l IH]; intros l' e; cbn [app expand_nodes obind].
  - destruct (expand_nodes o l' e) as [[out e2]| | | |]; reflexivity.
  - destruct (procNode o n e) as [[out e1]| | | |]; cbn [obind]; auto. rewrite IH.
    destruct (expand_nodes o l e1) as [[out2 e2]| | | |]; cbn [obind]; auto.
    destruct (expand_nodes o l' e2) as [[out3 e3]| | | |]; cbn [obind]; auto. now rewrite app_assoc.
Qed.
Lemma procEntry_outcome : forall o e ex res, outcome_of o (e_pars ex) e = Ok res ->
  procNode o (entry_node e) ex = match res with
    | None => Ok ([], ex)
    | Some x => match e_current ex with [] => Ok (print_lists x, ex) | n => Ok ([], mkE n (par_add n x (e_pars ex))) end
    end.
Proof.
  intros o [a els] ex res H. unfold entry_node, procNode, procEntry, outcome_of in *. cbn [fst snd] in *.
  destruct (skipped o a); [assert (res = None) by congruence; now subst|]. rewrite H. reflexivity.
Qed.
(** In a section *)
Lemma section_spec : forall o E es Xs, Forall2 (fun e X => entry_expansions o E (fst e) (snd e) X) es Xs -> Forall (entry_fine o E) es ->
  forall ps, models ps E ->
  exists Zs, Forall2 (@Permutation expansion) Zs Xs
    /\ expand_nodes o (map entry_node es) (mkE [] ps) = Ok (concat (map (fun Z => concat (map show Z)) Zs), mkE [] ps).
Proof.
  intros o E es Xs H. induction H as [|e X es Xs He H IH]; intros Hf ps Hm; [exists []; split; [constructor|reflexivity]|].
  inversion Hf as [|? ? Fe Fes]; subst. destruct (IH Fes ps Hm) as (Zs & PZ & EZ).
  destruct (entry_spec o ps E e X Hm Fe He) as (res & E1 & E2).
  exists (found res :: Zs). split; [constructor; auto|]. cbn [map expand_nodes].
  rewrite (procEntry_outcome o e (mkE [] ps) res E1).
  assert (Sh : forall x, print_lists x = concat (map show (tagged x))).
  { intros x. unfold print_lists, tagged. rewrite !map_app, !concat_app. unfold marked. rewrite !map_map. reflexivity. }
  destruct res as [x|]; cbn [e_current obind found]; rewrite EZ; cbn [obind concat map]; [now rewrite Sh|reflexivity].
Qed.
(** In a paradigm *)
Lemma pardef_spec : forall o E n es Xs, n <> [] -> E n = [] ->
  Forall2 (fun e X => entry_expansions o E (fst e) (snd e) X) es Xs -> Forall (entry_fine o E) es ->
  forall ps acc, models ps E -> match par_find n ps with Some p => Permutation (tagged p) acc | None => acc = [] end ->
  exists ps', expand_nodes o (map entry_node es) (mkE n ps) = Ok ([], mkE n ps')
    /\ match par_find n ps' with Some p => Permutation (tagged p) (acc ++ concat Xs) | None => acc ++ concat Xs = [] end
    /\ forall m, m <> n -> par_find m ps' = par_find m ps.
Proof.
  intros o E n es Xs Hn En H. induction H as [|e X es Xs He H IH]; intros Hf ps acc Hm Ha.
  - exists ps. split; [reflexivity|]. cbn [concat]. rewrite app_nil_r. auto.
  - inversion Hf as [|? ? Fe Fes]; subst. destruct (entry_spec o ps E e X Hm Fe He) as (res & E1 & E2).
    cbn [map expand_nodes]. rewrite (procEntry_outcome o e (mkE n ps) res E1). cbn [concat]. rewrite app_assoc.
    destruct n as [|c n]; [congruence|]. destruct res as [x|]; cbn [e_current e_pars obind].
    + destruct (IH Fes (par_add (c :: n) x ps) (acc ++ X)) as (ps' & F1 & F2 & F3).
      * intros m Hm'. rewrite par_find_add. destruct (ustr_eq_dec m (c :: n)) as [->|]; [congruence|]. now apply Hm.
      * rewrite par_find_add. destruct (ustr_eq_dec (c :: n) (c :: n)); [|congruence]. cbn [found] in E2.
        destruct (par_find (c :: n) ps) as [p|].
        -- rewrite tagged_add. now apply Permutation_app.
        -- subst acc. exact E2.
      * exists ps'. rewrite F1. split; [reflexivity|]. split; auto. intros m Hm'. rewrite F3 by auto. rewrite par_find_add.
        destruct (ustr_eq_dec m (c :: n)); [congruence|reflexivity].
    + cbn [found] in E2. apply Permutation_nil in E2. subst X. rewrite app_nil_r.
      destruct (IH Fes ps acc Hm Ha) as (ps' & F1 & F2 & F3). exists ps'. rewrite F1. auto.
Qed.
Lemma dictionary_spec : forall o E ns items, dictionary_fine o E ns items -> forall Ys, dictionary o E items Ys ->
  forall ps, models ps E -> (forall n, ~ In n ns -> par_find n ps = None /\ E n = []) ->
  exists Zs ps', Forall2 (@Permutation expansion) Zs Ys
    /\ expand_nodes o (flat_map item_nodes items) (mkE [] ps) = Ok (concat (map (fun Z => concat (map show Z)) Zs), mkE [] ps').
Proof.
  assert (Det : forall o E e X X', entry_expansions o E (fst e) (snd e) X -> entry_expansions o E (fst e) (snd e) X' -> X = X').
  { assert (D : forall o E els X, choices o E els X -> forall X', choices o E els X' -> X = X').
    { assert (L : forall o el l r l' r', literal o el l r -> literal o el l' r' -> l = l' /\ r = r').
      { intros o el l r l' r' H H'. destruct el; cbn in H, H'; try contradiction.
        - destruct H as [H ->], H' as [H' ->]. pose proof (written_functional _ _ _ _ H H'). auto.
        - destruct H as [H ->], H' as [H' ->]. pose proof (written_functional _ _ _ _ H H'). now subst.
        - destruct H as [H K], H' as [H' K']. split; eapply written_functional; eauto.
        - destruct H as (t & H & -> & ->), H' as (t' & H' & -> & ->). apply re_spells_procRegexp in H, H'. subst. auto. }
      intros o E els X H. induction H as [|el l r els X Hl H IH|n els X H IH]; intros X' H'.
      - inversion H'; reflexivity.
      - inversion H' as [|? l' r' ? X2 Hl' H2|? ? X2 H2]; subst.
        + destruct (L _ _ _ _ _ _ Hl Hl') as [<- <-]. now rewrite (IH _ H2).
        + destruct Hl.
      - inversion H' as [|? l' r' ? X2 Hl' H2|? ? X2 H2]; subst; [destruct Hl'|]. now rewrite (IH _ H2). }
    intros o E [a els] X X' H H'. cbn [fst snd] in *. destruct H as [H|d X H Hd Hc]; destruct H' as [K|d' X' K Kd Kc]; try contradiction; auto.
    rewrite (direction_unique _ _ _ _ Hd Kd), (D _ _ _ _ Hc _ Kc). reflexivity. }
  assert (Det2 : forall o E es Xs, Forall2 (fun e X => entry_expansions o E (fst e) (snd e) X) es Xs ->
    forall Xs', Forall2 (fun e X => entry_expansions o E (fst e) (snd e) X) es Xs' -> Xs = Xs').
  { intros o E es Xs H. induction H as [|e X es Xs He H IH]; intros Xs' H'; inversion H'; subst; auto.
    f_equal; [eapply Det; eauto|auto]. }
  intros o E ns items H. induction H as [E ns|E ns n es Xs items Hn Hfresh Hf Hx H IH|E ns es items Hf H IH]; intros Ys Hd ps Hm Hns.
  - inversion Hd; subst. exists [], ps. split; [constructor|reflexivity].
  - inversion Hd as [|? ? ? Xs' ? ? Hx' Hd'|]; subst. rewrite <- (Det2 _ _ _ _ Hx _ Hx') in Hd'. clear Hx'.
    destruct (Hns n Hfresh) as [Fn En].
    destruct (pardef_spec o E n es Xs Hn En Hx Hf ps [] Hm) as (ps' & F1 & F2 & F3). { now rewrite Fn. }
    cbn [app] in F2. destruct (IH Ys Hd' ps') as (Zs & ps2 & PZ & EZ).
    + intros m Hm'. unfold define in *. destruct (ustr_eq_dec m n) as [->|Nm].
      * destruct (par_find n ps') as [p|]; [eauto|congruence].
      * rewrite F3 by auto. now apply Hm.
    + intros m Hm'. assert (m <> n /\ ~ In m ns) as [N1 N2] by (split; intros K; apply Hm'; [now left|now right]).
      rewrite F3 by auto. unfold define. destruct (ustr_eq_dec m n); [congruence|]. now apply Hns.
    + exists Zs, ps2. split; auto. cbn [flat_map item_nodes app]. cbn [expand_nodes procNode obind e_pars].
      rewrite <- app_assoc, expand_app, F1. cbn [obind app expand_nodes procNode e_pars]. rewrite EZ. reflexivity.
  - inversion Hd as [| |? ? Xs ? Ys' Hx Hd']; subst.
    destruct (section_spec o E es Xs Hx Hf ps Hm) as (Zs & PZ & EZ). destruct (IH Ys' Hd' ps Hm Hns) as (Zs' & ps' & PZ' & EZ').
    exists (Zs ++ Zs'), ps'. split; [now apply Forall2_app|]. cbn [flat_map item_nodes app]. cbn [expand_nodes procNode obind e_pars].
    rewrite <- app_assoc, expand_app, EZ. cbn [obind app expand_nodes procNode]. rewrite EZ'. cbn [obind app]. now rewrite map_app, concat_app.
Qed.
