(** Property C81: trees that compare equal are interchangeable. *)
Require Import String QArith ZArith Lqa Bool List Arith Lia Permutation.
Require Import Verif.Base Verif.NumBase Verif.Json Verif.VarModel.
Require Import Verif.DiscreteModel Verif.TreeModel Verif.TreeSpec Verif.TreeApply Verif.TreeDiscrete Verif.TreeWorlds.
Require Import Verif.TreeJson Verif.TreeJsonDiscrete Verif.TreeInfer Verif.TreeWorldProofs Verif.TreeExample Verif.TreeProps Verif.TreeJsonProps.
Import ListNotations.
Open Scope list_scope.
Open Scope Q_scope.

Notation dmodel := (@model discrete dtype).
Notation dvar := (VarModel.var dtype num).
(** The domains of the variables of a model. *)
Definition doms_of (M : dmodel) : list dom := map (fun w : dvar => dom_of (vdom w)) (m_vars M).

(** ** Equal leaves *)

Lemma list_eqb_forall2 : forall A (e : A -> A -> bool) a b, list_eqb e a b = true <-> Forall2 (fun x y => e x y = true) a b.
Proof.
  intros A e. induction a as [|x a I]; intros [|y b]; cbn [list_eqb].
  - split; [constructor|reflexivity].
  - split; [discriminate|intro H; inversion H].
  - split; [discriminate|intro H; inversion H].
  - rewrite andb_true_iff, I. split; [intros [U V]; constructor; assumption|]. intro H. inversion H; subst. split; assumption.
Qed.
Lemma density_same : forall ds es w, Forall2 (fun d e => Forall2 Qeq (d_params d) (d_params e)) ds es -> density ds w == density es w.
Proof.
  intros ds es w H. revert w. induction H as [|d e ds es P H I]; intros [|x w]; cbn [density]; try reflexivity. rewrite (I w).
  assert (E : nth x (d_params d) 0 == nth x (d_params e) 0).
  { clear - P. revert x. induction P as [|a b l m E P I]; intros [|x]; cbn [nth]; try reflexivity; [exact E|apply I]. }
  rewrite E. reflexivity.
Qed.
Definition same_leaf (l l' : leaf discrete) : Prop :=
  l_idx l = l_idx l' /\ l_samples l = l_samples l' /\ l_prior l == l_prior l' /\ Forall2 (fun d e : ddist => d_dom d = d_dom e /\ Forall2 Qeq (d_params d) (d_params e)) (l_dists l) (l_dists l').
Lemma dom_eqb_eq : forall a b, dom_eqb a b = true -> a = b.
Proof.
  intros [a|lo hi] [b|lo' hi'] H; cbn [dom_eqb] in H; try discriminate.
  - apply list_eqb_forall2 in H. f_equal. induction H as [|x y a b E H I]; [reflexivity|]. f_equal; [|exact I]. destruct x, y; cbn in E; try discriminate; try reflexivity. apply Z.eqb_eq in E. congruence.
  - apply andb_true_iff in H. rewrite !Z.eqb_eq in H. destruct H. congruence.
Qed.
Lemma leaf_eqb_same : forall ws ws' l l', leaf_eqb dcodec ws ws' l l' = true -> same_leaf l l'.
Proof.
  intros ws ws' l l' H. unfold leaf_eqb in H. rewrite !andb_true_iff in H. destruct H as ((((A & _) & B) & Dd) & P).
  apply Nat.eqb_eq in A, B. apply Qeq_bool_iff in P. split; [exact A|]. split; [exact B|]. split; [exact P|].
  unfold dists_eqb in Dd. apply andb_true_iff in Dd. destruct Dd as [Dd _]. apply list_eqb_forall2 in Dd. cbn [dcodec dist_same] in Dd.
  clear - Dd. revert Dd. generalize (l_dists l) (l_dists l'). cbn [discrete dist]. intros a b H. induction H as [|d e a b E H I]; constructor; [|exact I].
  unfold ddist_eqb in E. apply andb_true_iff in E. destruct E as [E1 E2]. split; [apply dom_eqb_eq, E1|]. apply list_eqb_forall2 in E2. clear - E2.
  induction E2 as [|x y a b E H I]; constructor; [apply Qeq_bool_iff, E|exact I].
Qed.

(** ** Dictionaries of equal size, one included in the other *)

Lemma matched : forall A (key : A -> nat) (R : A -> A -> Prop) a b, NoDup (map key a) -> NoDup (map key b) -> length a = length b ->
  (forall x, In x a -> exists y, In y b /\ key y = key x /\ R x y) -> exists c, Forall2 R a c /\ Permutation c b /\ map key c = map key a.
Proof.
  intros A key R a b Na Nb Le H.
  assert (C : exists c, Forall2 R a c /\ incl c b /\ map key c = map key a).
  { clear - H. induction a as [|x a I]; [exists []; repeat split; [constructor|intros ? []]|]. destruct (H x (or_introl eq_refl)) as (y & Y & K & Rx).
    destruct I as (c & F & Ic & Kc); [intros z Z; apply H; right; exact Z|]. exists (y :: c). split; [constructor; assumption|]. split; [|cbn [map]; congruence].
    intros z [<-|Z]; [exact Y|apply Ic, Z]. }
  destruct C as (c & F & Ic & Kc). exists c. split; [exact F|]. split; [|exact Kc]. apply NoDup_Permutation_bis; [|rewrite <- Le, <- (map_length key a), <- Kc, map_length; apply le_n|exact Ic].
  apply (NoDup_map_inv key). rewrite Kc. exact Na.
Qed.

Lemma get_leaf_in : forall (J : jpt discrete) i l, get_leaf J i = Some l -> In l (leaves J) /\ l_idx l = i.
Proof. intros J i l H. unfold get_leaf in H. apply find_some in H. destruct H as [I E]. apply Nat.eqb_eq in E. split; assumption. Qed.

Lemma equal_leaves : forall M M' : dmodel, model_eqb dcodec M M' = true -> NoDup (map l_idx (leaves (m_tree M))) -> NoDup (map l_idx (leaves (m_tree M'))) ->
  exists ls, Forall2 same_leaf (leaves (m_tree M)) ls /\ Permutation ls (leaves (m_tree M')).
Proof.
  intros M M' E N N'. unfold model_eqb in E. rewrite !andb_true_iff in E. destruct E as (((((((((_ & (Le & Ls)) & _) & _) & _) & _) & _) & _) & _) & _).
  apply Nat.eqb_eq in Le. rewrite forallb_forall in Ls.
  destruct (matched _ (@l_idx discrete) same_leaf (leaves (m_tree M)) (leaves (m_tree M')) N N' Le) as (c & F & P & _).
  - intros l I. specialize (Ls l I). destruct (get_leaf (m_tree M') (l_idx l)) as [l'|] eqn:G; [|discriminate]. destruct (get_leaf_in _ _ _ G) as [I' K].
    exists l'. split; [exact I'|]. split; [exact K|]. exact (leaf_eqb_same _ _ _ _ Ls).
  - exists c. split; assumption.
Qed.

Lemma type_equiv_dom : forall a b, type_equiv a b = true -> dom_of a = dom_of b.
Proof.
  intros [c ls|c lo hi] [c' ls'|c' lo' hi'] H; cbn [type_equiv] in H; try discriminate.
  - apply andb_true_iff in H. destruct H as [_ H]. cbn [dom_of]. f_equal. revert ls' H. induction ls as [|x ls I]; intros [|y ls'] H; cbn [labels_eqb] in H; try discriminate; [reflexivity|].
    apply andb_true_iff in H. destruct H as [E H]. cbn [map]. f_equal; [|apply I, H]. destruct x, y; cbn [label_eqb] in E; try discriminate; [|reflexivity]. apply Z.eqb_eq in E. congruence.
  - rewrite !andb_true_iff, !Z.eqb_eq in H. destruct H as [[_ A] B]. cbn [dom_of]. congruence.
Qed.
Lemma equal_doms : forall M M' : dmodel, model_eqb dcodec M M' = true -> doms_of M = doms_of M'.
Proof.
  intros M M' E. unfold model_eqb in E. rewrite !andb_true_iff in E. destruct E as ((((_ & Ev) & _) & _) & _). apply list_eqb_forall2 in Ev. unfold doms_of.
  induction Ev as [|w w' a b E H I]; [reflexivity|]. cbn [map]. f_equal; [|exact I]. unfold var_eqb in E. rewrite !andb_true_iff in E. destruct E as [[_ E] _]. apply type_equiv_dom, E.
Qed.

Lemma sum_same : forall (g h : leaf discrete -> Q) a b, Forall2 same_leaf a b -> (forall l l', same_leaf l l' -> g l == h l') -> Qsum (map g a) == Qsum (map h b).
Proof. intros g h a b F H. induction F as [|l l' a b S F I]; [reflexivity|]. cbn [map Qsum]. rewrite (H _ _ S), I. reflexivity. Qed.
Lemma same_density : forall l l' w, same_leaf l l' -> density (l_dists l) w == density (l_dists l') w.
Proof.
  intros l l' w (_ & _ & _ & F). apply density_same. clear w. induction F as [|d e a b [_ E] F I]; constructor; [exact E|exact I].
Qed.

Lemma tree_leaf_ids : forall J : jpt discrete, tree_ok J -> NoDup (map l_idx (leaves J)).
Proof. intros J T. pose proof (ids J T) as N. revert N. generalize (map i_idx (innernodes J)) as a. induction a as [|x a I]; intro N; [exact N|]. inversion N; subst. apply I. assumption. Qed.

(** * C81: equal trees *)

(** Equal trees over the same values represent the same joint distribution. *)
Theorem C81_joint : forall M M' : dmodel, tree_ok (m_tree M) -> tree_ok (m_tree M') -> model_eqb dcodec M M' = true ->
  doms_of M = doms_of M' /\ (forall w, joint (m_tree M) w == joint (m_tree M') w) /\ forall q, Pr (doms_of M) (m_tree M) q == Pr (doms_of M') (m_tree M') q.
Proof.
  intros M M' T T' E. pose proof (equal_doms M M' E) as Ed. destruct (equal_leaves M M' E (tree_leaf_ids _ T) (tree_leaf_ids _ T')) as (ls & F & P).
  assert (Jt : forall w, joint (m_tree M) w == joint (m_tree M') w).
  { intro w. unfold joint. rewrite <- (Qsum_map_perm _ _ _ _ P). apply sum_same; [exact F|].
    intros l l' S. rewrite (same_density l l' w S). destruct S as (_ & _ & E1 & _). rewrite E1. reflexivity. }
  split; [exact Ed|]. split; [exact Jt|]. intro q. rewrite Ed. unfold Pr. apply Qsum_map_ext. intros w _. destruct (sat q w); [apply Jt|reflexivity].
Qed.
Print Assumptions C81_joint.

(** Equal trees give the same answers to [infer], also if query and evidence share variables. *)
Theorem C81_infer : forall (M M' : dmodel) (q e : query) fail, wf_tree (doms_of M) (m_tree M) -> wf_tree (doms_of M') (m_tree M') -> model_eqb dcodec M M' = true ->
  wf_query (doms_of M) q -> wf_query (doms_of M) e ->
  (infer (m_tree M) q e fail = infer (m_tree M') q e fail) \/
  exists r r', infer (m_tree M) q e fail = Ok (Some r) /\ infer (m_tree M') q e fail = Ok (Some r') /\ r == r'.
Proof.
  intros M M' q e fail W W' E Wq We. destruct (C81_joint M M' (wt_tree _ _ W) (wt_tree _ _ W') E) as (Ed & _ & Pe).
  assert (Wq' : wf_query (doms_of M') q) by (rewrite <- Ed; exact Wq). assert (We' : wf_query (doms_of M') e) by (rewrite <- Ed; exact We).
  destruct (world_infer_general _ _ W q e fail Wq We) as [Z1 N1]. destruct (world_infer_general _ _ W' q e fail Wq' We') as [Z2 N2].
  destruct (Qeq_dec (Pr (doms_of M) (m_tree M) e) 0) as [Z|N].
  - left. rewrite (Z1 Z). rewrite Pe in Z. rewrite (Z2 Z). reflexivity.
  - right. destruct (N1 N) as (r & E1 & V1). assert (N' : ~ Pr (doms_of M') (m_tree M') e == 0) by (rewrite <- Pe; exact N). destruct (N2 N') as (r' & E2 & V2).
    exists r, r'. split; [exact E1|]. split; [exact E2|]. rewrite V1, V2, Pe.
    destruct (equal_leaves M M' E (tree_leaf_ids _ (wt_tree _ _ W)) (tree_leaf_ids _ (wt_tree _ _ W'))) as (ls & F & P).
    rewrite <- (Qsum_map_perm _ _ _ _ P). rewrite <- Ed.
    assert (S : forall a b, same_leaf a b -> forall q, Pr_leaf (doms_of M) (l_dists a) q == Pr_leaf (doms_of M) (l_dists b) q).
    { intros a b S x. unfold Pr_leaf. apply Qsum_map_ext. intros w _. destruct (sat x w); [apply same_density, S|reflexivity]. }
    erewrite (sum_same _ _ (leaves (m_tree M)) ls F); [reflexivity|]. intros l l' Sl. rewrite (S _ _ Sl q), (S _ _ Sl e). destruct Sl as (_ & _ & Ep & _). rewrite Ep. reflexivity.
Qed.
Print Assumptions C81_infer.

(** ** Equality is reflexive and symmetric *)

Definition symm {A} (e : A -> A -> bool) : Prop := forall x y, e x y = true -> e y x = true.
Lemma list_symm : forall A (e : A -> A -> bool), symm e -> symm (list_eqb e).
Proof. intros A e H a b E. apply list_eqb_forall2 in E. apply list_eqb_forall2. induction E as [|x y a b X E I]; constructor; [apply H, X|exact I]. Qed.
Lemma list_refl : forall A (e : A -> A -> bool) a, (forall x, In x a -> e x x = true) -> list_eqb e a a = true.
Proof. intros A e a H. induction a as [|x a I]; [reflexivity|]. cbn [list_eqb]. rewrite H by (left; reflexivity). apply I. intros y Y. apply H. right. exact Y. Qed.
Lemma num_symm : symm num_eqb.
Proof. intros [x|] [y|] H; cbn [num_eqb] in *; try discriminate; try reflexivity. apply Qeq_bool_iff in H. apply Qeq_bool_iff. symmetry. exact H. Qed.
Lemma num_refl : forall x, num_eqb x x = true.
Proof. intros [x|]; [|reflexivity]. cbn [num_eqb]. apply Qeq_bool_iff. reflexivity. Qed.
Lemma scalar_symm : symm scalar_eqb.
Proof. intros x y H. unfold scalar_eqb in *. destruct (scalar_num x), (scalar_num y); try discriminate; try reflexivity. apply num_symm, H. Qed.
Lemma scalar_refl : forall x, scalar_eqb x x = true.
Proof. intro x. unfold scalar_eqb. destruct (scalar_num x); [apply num_refl|reflexivity]. Qed.
Lemma opt_symm : symm opt_eqb.
Proof. intros [x|] [y|] H; cbn [opt_eqb] in *; try discriminate; try reflexivity. rewrite Nat.eqb_sym. exact H. Qed.
Lemma opt_refl : forall x, opt_eqb x x = true.
Proof. intros [x|]; [apply Nat.eqb_refl|reflexivity]. Qed.
Lemma kind_symm : symm kind_eqb.
Proof. intros [] [] H; try discriminate; reflexivity. Qed.

Lemma dget_in : forall A (d : list (string * A)) k v, dget d k = Some v -> In (k, v) d.
Proof.
  intros A d k v. induction d as [|[k' v'] d I]; cbn [dget]; [discriminate|]. destruct (String.eqb k k') eqn:E; intro H; [|right; apply I, H]. apply String.eqb_eq in E. left. congruence.
Qed.
Lemma in_dget : forall A (d : list (string * A)) k v, NoDup (map fst d) -> In (k, v) d -> dget d k = Some v.
Proof.
  intros A d k v. induction d as [|[k' v'] d I]; [intros _ []|]. cbn [map fst dget]. intros N [E|H]; inversion N; subst.
  - injection E as -> ->. rewrite String.eqb_refl. reflexivity.
  - destruct (String.eqb k k') eqn:E; [|apply I; assumption]. apply String.eqb_eq in E. subst k'. exfalso. match goal with X : ~ In _ _ |- _ => apply X end. apply (in_map fst) in H. exact H.
Qed.
Lemma matched_back : forall A B (key : A -> B) (R : A -> A -> Prop) a b, NoDup (map key a) -> length a = length b ->
  (forall x, In x a -> exists y, In y b /\ key y = key x /\ R x y) -> forall y, In y b -> exists x, In x a /\ key x = key y /\ R x y.
Proof.
  intros A B key R a b Na Le H.
  assert (C : exists c, Forall2 (fun x y => key y = key x /\ R x y) a c /\ incl c b).
  { clear - H. induction a as [|x a I]; [exists []; split; [constructor|intros ? []]|]. destruct (H x (or_introl eq_refl)) as (y & Y & K & Rx).
    destruct I as (c & F & Ic); [intros z Z; apply H; right; exact Z|]. exists (y :: c). split; [constructor; [split; assumption|assumption]|].
    intros z [<-|Z]; [exact Y|apply Ic, Z]. }
  destruct C as (c & F & Ic).
  assert (K : map key c = map key a) by (clear - F; induction F as [|x y a c [K _] F I]; [reflexivity|cbn [map]; congruence]).
  assert (Lc : length c = length b) by (rewrite <- Le, <- (map_length key a), <- K, map_length; reflexivity).
  assert (Nc : NoDup c) by (apply (NoDup_map_inv key); rewrite K; exact Na).
  assert (Inc : incl b c) by (apply NoDup_length_incl; [exact Nc|lia|exact Ic]).
  intros y Y. apply Inc in Y. clear - F Y. induction F as [|x z a c [K Rx] F I]; [destruct Y|]. destruct Y as [<-|Y].
  - exists x. split; [left; reflexivity|]. split; [congruence|exact Rx].
  - destruct (I Y) as (u & U & Ku & Ru). exists u. split; [right; exact U|]. split; assumption.
Qed.
(** Two dictionaries of equal size, each entry of the first of which is in the second. *)
Definition dict_eqb {A} (e : A -> A -> bool) (a b : list (string * A)) : bool :=
  Nat.eqb (length a) (length b) && forallb (fun kv => match dget b (fst kv) with Some y => e (snd kv) y | None => false end) a.
Lemma dict_back : forall A (e : A -> A -> bool) a b, NoDup (map fst a) -> dict_eqb e a b = true -> forall k y, In (k, y) b -> exists x, dget a k = Some x /\ e x y = true.
Proof.
  intros A e a b N H k y Y. unfold dict_eqb in H. apply andb_true_iff in H. destruct H as [Le H]. apply Nat.eqb_eq in Le. rewrite forallb_forall in H.
  destruct (matched_back _ _ (@fst string A) (fun p q => e (snd p) (snd q) = true) a b N Le) with (y := (k, y)) as ((k' & x) & I & K & E); [|exact Y|].
  - intros [k' x] I. specialize (H _ I). cbn [fst snd] in *. destruct (dget b k') as [z|] eqn:G; [|discriminate]. exists (k', z). split; [apply dget_in, G|]. split; [reflexivity|exact H].
  - cbn [fst snd] in *. subst k'. exists x. split; [apply in_dget; assumption|exact E].
Qed.
Lemma dict_symm : forall A (e : A -> A -> bool) a b, symm e -> NoDup (map fst a) -> dict_eqb e a b = true -> dict_eqb e b a = true.
Proof.
  intros A e a b S N H. pose proof (dict_back A e a b N H) as Bk. unfold dict_eqb in *. apply andb_true_iff in H. destruct H as [Le _]. apply andb_true_iff. split; [rewrite Nat.eqb_sym; exact Le|].
  rewrite forallb_forall. intros [k y] Y. destruct (Bk k y Y) as (x & G & E). cbn [fst snd]. rewrite G. apply S, E.
Qed.
Lemma dict_refl : forall A (e : A -> A -> bool) a, NoDup (map fst a) -> (forall k x, In (k, x) a -> e x x = true) -> dict_eqb e a a = true.
Proof.
  intros A e a N H. unfold dict_eqb. rewrite Nat.eqb_refl. cbn [andb]. rewrite forallb_forall. intros [k x] I. cbn [fst snd]. rewrite (in_dget _ _ _ _ N I). apply (H k x I).
Qed.

Section Equality.
  Context {F : family} {D : Type}.
  Variable C : codec F D.
  Notation W := (VarModel.var D num).
  (** Domains, value sets and distributions compare in a symmetric way. *)
  Hypothesis dom_symm : symm (dom_equiv C).
  Hypothesis set_symm : symm (set_same C).
  Hypothesis dist_symm : symm (dist_same C).
  Hypothesis dom_refl : forall t, dom_equiv C t t = true.
  Hypothesis set_refl : forall s, set_same C s s = true.
  Hypothesis dist_refl : forall d, dist_same C d d = true.

  (** The settings of a variable are a dictionary. *)
  Definition plain (w : W) : Prop := NoDup (map fst (VarModel.vset w)).
  Lemma var_symm : forall w w' : W, plain w -> var_eqb C w w' = true -> var_eqb C w' w = true.
  Proof.
    intros w w' P H. unfold var_eqb in *. rewrite !andb_true_iff in *. destruct H as [[[A B] Cc] Dd]. split; [split; [split; [apply kind_symm, A|rewrite String.eqb_sym; exact B]|apply dom_symm, Cc]|].
    apply (dict_symm _ num_eqb); [exact num_symm|exact P|exact Dd].
  Qed.
  Lemma var_refl : forall w : W, plain w -> var_eqb C w w = true.
  Proof.
    intros w P. unfold var_eqb. rewrite String.eqb_refl, dom_refl. replace (kind_eqb (vk w) (vk w)) with true by (destruct (vk w); reflexivity). cbn [andb]. apply (dict_refl _ num_eqb); [exact P|]. intros. apply num_refl.
  Qed.
  Lemma varset_symm : forall ws ws' : list W, (forall w, In w ws -> plain w) -> NoDup (map vname ws) -> varset_eqb C ws ws' = true -> varset_eqb C ws' ws = true.
  Proof.
    intros ws ws' P N H. unfold varset_eqb in *. apply andb_true_iff in H. destruct H as [Le H]. apply andb_true_iff. split; [rewrite Nat.eqb_sym; exact Le|]. apply Nat.eqb_eq in Le.
    rewrite forallb_forall in *. intros y Y. destruct (matched_back _ _ vname (fun a b => var_eqb C a b = true) ws ws' N Le) with (y := y) as (x & X & _ & E); [|exact Y|].
    - intros x X. specialize (H x X). apply existsb_exists in H. destruct H as (z & Z & E). exists z. split; [exact Z|]. split; [|exact E]. unfold var_eqb in E. rewrite !andb_true_iff, String.eqb_eq in E. symmetry. apply E.
    - apply existsb_exists. exists x. split; [exact X|]. apply var_symm; [apply P, X|exact E].
  Qed.
  Lemma varset_refl : forall ws : list W, (forall w, In w ws -> plain w) -> varset_eqb C ws ws = true.
  Proof.
    intros ws P. unfold varset_eqb. rewrite Nat.eqb_refl. cbn [andb]. rewrite forallb_forall. intros x X. apply existsb_exists. exists x. split; [exact X|]. apply var_refl, P, X.
  Qed.
  Lemma vars_symm : forall ws ws' : list W, (forall w, In w ws -> plain w) -> list_eqb (var_eqb C) ws ws' = true -> list_eqb (var_eqb C) ws' ws = true.
  Proof.
    intros ws ws' P H. apply list_eqb_forall2 in H. apply list_eqb_forall2. induction H as [|x y a b E H I]; constructor; [apply var_symm; [apply P; left; reflexivity|exact E]|apply I; intros w X; apply P; right; exact X].
  Qed.
  Lemma at_symm : forall (ws ws' : list W) v v', (forall w, In w ws -> plain w) -> at_eqb C ws ws' v v' = true -> at_eqb C ws' ws v' v = true.
  Proof.
    intros ws ws' v v' P H. unfold at_eqb in *. destruct (nth_error ws v) as [w|] eqn:E; [|discriminate]. destruct (nth_error ws' v') as [w'|]; [|discriminate]. apply var_symm; [apply P, (nth_error_In _ _ E)|exact H].
  Qed.
  Lemma at_refl : forall (ws : list W) v, (forall w, In w ws -> plain w) -> (v < length ws)%nat -> at_eqb C ws ws v v = true.
  Proof.
    intros ws v P L. unfold at_eqb. destruct (nth_error ws v) as [w|] eqn:E; [|apply nth_error_None in E; lia]. apply var_refl, P, (nth_error_In _ _ E).
  Qed.
  Lemma dists_symm : forall (ws ws' : list W) a b, (forall w, In w ws -> plain w) -> NoDup (map vname ws) -> dists_eqb C ws ws' a b = true -> dists_eqb C ws' ws b a = true.
  Proof.
    intros ws ws' a b P N H. unfold dists_eqb in *. apply andb_true_iff in H. destruct H as [H1 H2]. apply andb_true_iff. split; [apply (list_symm _ _ dist_symm), H1|].
    destruct a as [|x a], b as [|y b]; try reflexivity; try discriminate H1. apply andb_true_iff in H2. destruct H2 as [H2 H3]. apply andb_true_iff. split; [|apply varset_symm; assumption].
    apply list_symm; [|exact H2]. intros s t E. rewrite String.eqb_sym. exact E.
  Qed.
  Lemma dists_refl : forall (ws : list W) a, (forall w, In w ws -> plain w) -> dists_eqb C ws ws a a = true.
  Proof.
    intros ws a P. unfold dists_eqb. rewrite list_refl by (intros; apply dist_refl). destruct a; [reflexivity|]. rewrite list_refl by (intros; apply String.eqb_refl). apply varset_refl, P.
  Qed.

  (** A tree whose variables have distinct names, whose nodes have distinct numbers and
      whose dictionaries have distinct keys; nodes refer to its variables. *)
  Record regular (M : @model F D) : Prop := Regular {
    rg_plain : forall w, In w (m_vars M) -> plain w;
    rg_names : NoDup (map vname (m_vars M));
    rg_inner : NoDup (map i_idx (innernodes (m_tree M)));
    rg_leaves : NoDup (map l_idx (leaves (m_tree M)));
    rg_targets : forall w, In w (m_targets M) -> plain w;
    rg_deps : NoDup (map fst (vm_map (m_deps M)));
    rg_deps_vars : forall w, In w (map snd (vm_vars (m_deps M))) -> plain w;
    rg_deps_names : NoDup (map vname (map snd (vm_vars (m_deps M))));
    rg_deps_lists : forall k us w, In (k, us) (vm_map (m_deps M)) -> In w us -> plain w;
    rg_at_inner : forall n, In n (innernodes (m_tree M)) -> (i_var n < length (m_vars M))%nat;
    rg_at_leaves : forall l v s, In l (leaves (m_tree M)) -> In (v, s) (l_path l) -> (v < length (m_vars M))%nat }.
  Lemma get_leaf_in' : forall (J : jpt F) i l, get_leaf J i = Some l -> In l (leaves J) /\ l_idx l = i.
  Proof. intros J i l H. unfold get_leaf in H. apply find_some in H. destruct H as [I E]. apply Nat.eqb_eq in E. split; assumption. Qed.
  Lemma get_inner_in' : forall (J : jpt F) i l, get_inner J i = Some l -> In l (innernodes J) /\ i_idx l = i.
  Proof. intros J i l H. unfold get_inner in H. apply find_some in H. destruct H as [I E]. apply Nat.eqb_eq in E. split; assumption. Qed.
  Lemma find_key : forall A (key : A -> nat) a x, NoDup (map key a) -> In x a -> find (fun y => Nat.eqb (key y) (key x)) a = Some x.
  Proof.
    intros A key a x N I. induction a as [|y a IH]; [destruct I|]. cbn [find]. inversion N as [|? ? X Y]; subst. destruct I as [->|I]; [rewrite Nat.eqb_refl; reflexivity|].
    destruct (Nat.eqb (key y) (key x)) eqn:E; [|apply IH; assumption]. exfalso. apply Nat.eqb_eq in E. apply X. rewrite E. apply in_map, I.
  Qed.

  Lemma leaf_symm : forall (ws ws' : list W) l l', (forall w, In w ws -> plain w) -> NoDup (map vname ws) -> leaf_eqb C ws ws' l l' = true -> leaf_eqb C ws' ws l' l = true.
  Proof.
    intros ws ws' l l' P N H. unfold leaf_eqb in *. rewrite !andb_true_iff in *. destruct H as ((((A & B) & Cc) & Dd) & E). split; [split; [split; [split|]|]|].
    - rewrite Nat.eqb_sym. exact A.
    - apply list_eqb_forall2 in B. apply list_eqb_forall2. clear - B P dom_symm set_symm. induction B as [|[v s] [v' s'] a b X B I]; constructor; [|exact I]. cbn [fst snd] in *. apply andb_true_iff in X. destruct X as [X Y]. rewrite (at_symm _ _ _ _ P X), (set_symm _ _ Y). reflexivity.
    - rewrite Nat.eqb_sym. exact Cc.
    - apply dists_symm; assumption.
    - apply Qeq_bool_iff. symmetry. apply Qeq_bool_iff. exact E.
  Qed.
  Lemma inner_symm : forall (ws ws' : list W) n n', (forall w, In w ws -> plain w) -> inner_eqb C ws ws' n n' = true -> inner_eqb C ws' ws n' n = true.
  Proof.
    intros ws ws' n n' P H. unfold inner_eqb in *. rewrite !andb_true_iff in *. destruct H as (((((A & B) & Cc) & Dd) & E) & G). split; [split; [split; [split; [split|]|]|]|].
    - rewrite Nat.eqb_sym. exact A.
    - apply opt_symm, B.
    - apply (list_symm _ _ opt_symm), Cc.
    - apply (list_symm _ _ set_symm), Dd.
    - apply at_symm; assumption.
    - rewrite Nat.eqb_sym. exact G.
  Qed.

  Lemma lists_symm : forall a b : list W, (forall w, In w a -> plain w) -> list_eqb (var_eqb C) a b = true -> list_eqb (var_eqb C) b a = true.
  Proof. exact vars_symm. Qed.

  Lemma deps_symm : forall M M' : @model F D, regular M -> deps_eqb C (m_deps M) (m_deps M') = true -> deps_eqb C (m_deps M') (m_deps M) = true.
  Proof.
    intros M M' R H. unfold deps_eqb in *. apply andb_true_iff in H. destruct H as [H1 H2]. apply andb_true_iff. split; [|apply varset_symm; [apply (rg_deps_vars _ R)|apply (rg_deps_names _ R)|exact H2]].
    change (dict_eqb (list_eqb (var_eqb C)) (vm_map (m_deps M)) (vm_map (m_deps M')) = true) in H1. change (dict_eqb (list_eqb (var_eqb C)) (vm_map (m_deps M')) (vm_map (m_deps M)) = true).
    pose proof (dict_back _ _ _ _ (rg_deps _ R) H1) as Bk. unfold dict_eqb in *. apply andb_true_iff in H1. destruct H1 as [Le _]. apply andb_true_iff. split; [rewrite Nat.eqb_sym; exact Le|].
    rewrite forallb_forall. intros [k y] Y. destruct (Bk k y Y) as (x & G & E). cbn [fst snd]. rewrite G. apply lists_symm; [|exact E]. intros w I. apply (rg_deps_lists _ R k x w); [apply dget_in, G|exact I].
  Qed.

  Theorem model_symm : forall M M' : @model F D, regular M -> regular M' -> model_eqb C M M' = true -> model_eqb C M' M = true.
  Proof.
    intros M M' R R' H. unfold model_eqb in *. rewrite !andb_true_iff in *. destruct H as ((((((((((A1 & A2) & (B1 & B2)) & Pp) & S1) & S2) & Ta) & Va) & S3) & S4) & De).
    repeat (apply conj); try (apply scalar_symm; assumption).
    - rewrite Nat.eqb_sym. exact A1.
    - apply Nat.eqb_eq in A1. rewrite forallb_forall in *. intros y Y.
      destruct (matched_back _ _ (@i_idx F) (fun a b => inner_eqb C (m_vars M) (m_vars M') a b = true) _ _ (rg_inner _ R) A1) with (y := y) as (x & X & K & E); [|exact Y|].
      + intros x X. specialize (A2 x X). destruct (get_inner (m_tree M') (i_idx x)) as [z|] eqn:G; [|discriminate]. destruct (get_inner_in' _ _ _ G) as [Z Kz]. exists z. split; [exact Z|]. split; [exact Kz|exact A2].
      + unfold get_inner. rewrite <- K, (find_key _ _ _ _ (rg_inner _ R) X). apply inner_symm; [apply (rg_plain _ R)|exact E].
    - rewrite Nat.eqb_sym. exact B1.
    - apply Nat.eqb_eq in B1. rewrite forallb_forall in *. intros y Y.
      destruct (matched_back _ _ (@l_idx F) (fun a b => leaf_eqb C (m_vars M) (m_vars M') a b = true) _ _ (rg_leaves _ R) B1) with (y := y) as (x & X & K & E); [|exact Y|].
      + intros x X. specialize (B2 x X). destruct (get_leaf (m_tree M') (l_idx x)) as [z|] eqn:G; [|discriminate]. destruct (get_leaf_in' _ _ _ G) as [Z Kz]. exists z. split; [exact Z|]. split; [exact Kz|exact B2].
      + unfold get_leaf. rewrite <- K, (find_key _ _ _ _ (rg_leaves _ R) X). apply leaf_symm; [apply (rg_plain _ R)|apply (rg_names _ R)|exact E].
    - apply dists_symm; [apply (rg_plain _ R)|apply (rg_names _ R)|exact Pp].
    - apply vars_symm; [apply (rg_targets _ R)|exact Ta].
    - apply vars_symm; [apply (rg_plain _ R)|exact Va].
    - apply deps_symm; assumption.
  Qed.

  Theorem model_refl : forall M : @model F D, regular M -> model_eqb C M M = true.
  Proof.
    intros M R. unfold model_eqb. rewrite !andb_true_iff. pose proof (rg_plain _ R) as P.
    repeat (apply conj); try apply scalar_refl; try apply Nat.eqb_refl.
    - rewrite forallb_forall. intros n I. unfold get_inner. rewrite (find_key _ _ _ _ (rg_inner _ R) I). unfold inner_eqb. rewrite !Nat.eqb_refl, opt_refl, list_refl, list_refl, at_refl; auto using opt_refl. apply (rg_at_inner _ R), I.
    - rewrite forallb_forall. intros l I. unfold get_leaf. rewrite (find_key _ _ _ _ (rg_leaves _ R) I). unfold leaf_eqb. rewrite !Nat.eqb_refl, dists_refl, list_refl; auto.
      + cbn [andb]. apply Qeq_bool_iff. reflexivity.
      + intros [v s] X. cbn [fst snd]. rewrite set_refl, at_refl; auto. apply (rg_at_leaves _ R l v s I X).
    - apply dists_refl, P.
    - apply list_refl. intros w I. apply var_refl, (rg_targets _ R), I.
    - apply list_refl. intros w I. apply var_refl, P, I.
    - unfold deps_eqb. rewrite varset_refl by apply (rg_deps_vars _ R). rewrite andb_true_r. apply (dict_refl _ (list_eqb (var_eqb C))); [apply (rg_deps _ R)|]. intros k us I. apply list_refl. intros w X. apply var_refl, (rg_deps_lists _ R k us w I X).
  Qed.
End Equality.

(** ** Trees over symbolic and integer variables *)

Lemma label_symm : forall a b, label_eqb a b = true -> label_eqb b a = true.
Proof. intros [x|x] [y|y] H; cbn [label_eqb] in *; try discriminate; [rewrite Z.eqb_sym|rewrite String.eqb_sym]; exact H. Qed.
Lemma label_refl : forall a, label_eqb a a = true.
Proof. intros [x|x]; cbn [label_eqb]; [apply Z.eqb_refl|apply String.eqb_refl]. Qed.
Lemma type_symm : symm type_equiv.
Proof.
  intros [c ls|c lo hi] [c' ls'|c' lo' hi'] H; cbn [type_equiv] in *; try discriminate.
  - apply andb_true_iff in H. destruct H as [H1 H]. apply andb_true_iff. split; [rewrite String.eqb_sym; exact H1|]. clear H1. revert ls' H. induction ls as [|x ls I]; intros [|y ls'] H; cbn [labels_eqb] in *; try discriminate; [reflexivity|].
    apply andb_true_iff in H. apply andb_true_iff. split; [apply label_symm, H|apply I, H].
  - rewrite !andb_true_iff, !Z.eqb_eq, String.eqb_eq in *. destruct H as [[-> ->] ->]. tauto.
Qed.
Lemma type_refl : forall t, type_equiv t t = true.
Proof.
  intros [c ls|c lo hi]; cbn [type_equiv]; rewrite String.eqb_refl; cbn [andb]; [|rewrite !Z.eqb_refl; reflexivity]. induction ls as [|x ls I]; [reflexivity|]. cbn [labels_eqb]. rewrite label_refl. exact I.
Qed.
Lemma nats_symm : symm nats_same.
Proof. intros a b H. unfold nats_same in *. apply andb_true_iff in H. apply andb_true_iff. tauto. Qed.
Lemma ddist_symm : symm ddist_eqb.
Proof.
  intros a b H. unfold ddist_eqb in *. apply andb_true_iff in H. destruct H as [H1 H2]. apply andb_true_iff. split.
  - pose proof (dom_eqb_eq _ _ H1) as E. rewrite E in H1 |- *. exact H1.
  - apply list_symm; [|exact H2]. intros x y E. apply Qeq_bool_iff. symmetry. apply Qeq_bool_iff. exact E.
Qed.

(** Comparing two trees does not depend on their order; every tree is equal to itself. *)
Theorem C81_symmetric : forall M M' : dmodel, regular M -> regular M' -> model_eqb dcodec M M' = model_eqb dcodec M' M.
Proof.
  intros M M' R R'. apply eq_true_iff_eq. split; apply (model_symm dcodec type_symm nats_symm ddist_symm); assumption.
Qed.
Print Assumptions C81_symmetric.
Theorem C81_reflexive : forall M : dmodel, regular M -> model_eqb dcodec M M = true.
Proof. intros M R. apply (model_refl dcodec type_refl (nats_same_refl : forall s : TreeModel.vset discrete, set_same dcodec s s = true) (ddist_eqb_refl : forall d : dist discrete, dist_same dcodec d d = true)). exact R. Qed.
Print Assumptions C81_reflexive.

(** Equal trees have the same variables in the same order: same kinds, names, values and
    settings. *)
Definition same_entry (a b : option num) : Prop :=
  match a, b with Some (Some x), Some (Some y) => x == y | Some None, Some None => True | None, None => True | _, _ => False end.
Theorem C81_variables : forall M M' : dmodel, regular M -> model_eqb dcodec M M' = true ->
  Forall2 (fun w w' : dvar => vk w = vk w' /\ vname w = vname w' /\ dom_of (vdom w) = dom_of (vdom w') /\
    forall k, same_entry (dget (VarModel.vset w) k) (dget (VarModel.vset w') k)) (m_vars M) (m_vars M').
Proof.
  intros M M' R E. pose proof (rg_plain _ R) as P. unfold model_eqb in E. rewrite !andb_true_iff in E. destruct E as ((((_ & Ev) & _) & _) & _). apply list_eqb_forall2 in Ev.
  induction Ev as [|w w' a b E H I]; constructor; [|apply I; intros u U; apply P; right; exact U]. clear I. specialize (P w (or_introl eq_refl)).
  unfold var_eqb in E. rewrite !andb_true_iff, String.eqb_eq in E. destruct E as [[[A B] Cc] Dd]. split; [destruct (vk w), (vk w'); try discriminate A; reflexivity|]. split; [exact B|]. split; [apply type_equiv_dom, Cc|].
  intro k. change (dict_eqb num_eqb (VarModel.vset w) (VarModel.vset w') = true) in Dd. pose proof (dict_back _ _ _ _ P Dd) as Bk. unfold dict_eqb in Dd. apply andb_true_iff in Dd. destruct Dd as [_ Dd]. rewrite forallb_forall in Dd.
  assert (N : forall x y, num_eqb x y = true -> same_entry (Some x) (Some y)) by (intros [x|] [y|] X; cbn in *; try discriminate; try exact Logic.I; apply Qeq_bool_iff, X).
  destruct (dget (VarModel.vset w) k) as [x|] eqn:G.
  - specialize (Dd _ (dget_in _ _ _ _ G)). cbn [fst snd] in Dd. destruct (dget (VarModel.vset w') k) as [y|]; [|discriminate]. apply N, Dd.
  - destruct (dget (VarModel.vset w') k) as [y|] eqn:G'; [|exact Logic.I]. destruct (Bk k y (dget_in _ _ _ _ G')) as (x & X & _). rewrite G in X. discriminate.
Qed.
Print Assumptions C81_variables.

(** *** Example: the tree of TreeExample.v, with its leaves in another order and one prior
    and one parameter written differently. *)
Definition ex_l1' : leaf discrete := Leaf (F := discrete) 1 (Some 0%nat) (2 # 4) 4 [DDist X3 [1; 0; 0]; DDist Y2 [2 # 6; 2 # 3]] [(0, [0])%nat].
Definition ex' : jpt discrete := JPT (F := discrete) 2 (dfull ex_doms) [ex_right; ex_root] [ex_l4; ex_l1'; ex_l3] (Some 0%nat) [].
Lemma ex_wf' : wf_tree ex_doms ex'.
Proof.
  constructor; [reflexivity|reflexivity| |repeat (apply Forall_cons; [wf_leaf_tac|]); apply Forall_nil]. constructor.
  - cbn. repeat constructor; cbn; intuition discriminate.
  - exists 0%nat, (NInner ex_root). repeat split.
  - intros n I. cbn in I. cases I; subst n; reflexivity.
  - intros n I. cbn in I. cases I; subst n; cbn; repeat constructor; cbn; intuition discriminate.
  - intros n k c s I Ec Es. cbn in I. cases I; subst n; (destruct k as [|[|k]]; cbn in Ec, Es; [| |destruct k; discriminate]); inversion Ec; inversion Es; subst; eexists _, _; repeat split.
  - intros i m G. destruct i as [|[|[|[|[|i]]]]]; cbn in G; try discriminate; inversion G; subst m; cbn; try reflexivity; eexists; split; try reflexivity; cbn; tauto.
Qed.
Definition ex_M : dmodel := Model [exX dfl; exY] [] [exX dfl; exY] (SInt 1) SNone SNone SNone (VM [] []) (VM [] []) ex.
Definition ex_M' : dmodel := Model [exX dfl; exY] [] [exX dfl; exY] (SFlt (Some 1)) SNone SNone SNone (VM [] []) (VM [] []) ex'.
Example C81_example : regular ex_M /\ regular ex_M' /\ model_eqb dcodec ex_M ex_M' = true /\ wf_tree (doms_of ex_M) (m_tree ex_M) /\ wf_tree (doms_of ex_M') (m_tree ex_M') /\
  m_tree ex_M <> m_tree ex_M' /\ wf_query (doms_of ex_M) [(0%nat, [1%nat])] /\
  match infer (m_tree ex_M) [(0%nat, [1%nat])] [(1%nat, [0%nat])] true, infer (m_tree ex_M') [(0%nat, [1%nat])] [(1%nat, [0%nat])] true with
  | Ok (Some r), Ok (Some r') => Qeq_bool r (3 # 10) && Qeq_bool r' (3 # 10) | _, _ => false end = true.
Proof.
  assert (R : forall J : jpt discrete, (J = ex \/ J = ex') -> regular (Model [exX dfl; exY] [] [exX dfl; exY] (SInt 1) SNone SNone SNone (VM [] []) (VM [] []) J)).
  { intros J H. constructor; cbn [m_vars m_tree m_targets m_deps vm_map vm_vars map fst].
    - intros w [<-|[<-|[]]]; repeat constructor; cbn; intuition discriminate.
    - repeat constructor; cbn; intuition discriminate.
    - destruct H as [->| ->]; cbn; repeat constructor; cbn; intuition discriminate.
    - destruct H as [->| ->]; cbn; repeat constructor; cbn; intuition discriminate.
    - intros w [].
    - constructor.
    - intros w [].
    - constructor.
    - intros k us w [].
    - intros n I. destruct H as [->| ->]; cbn in I; cases I; subst n; cbn; lia.
    - intros l v s I X. destruct H as [->| ->]; cbn in I; cases I; subst l; cbn in X; cases X; inversion X; cbn; lia. }
  split; [apply (R ex); tauto|]. split; [destruct (R ex' (or_intror eq_refl)); constructor; assumption|]. split; [vm_compute; reflexivity|]. split; [exact ex_wf|]. split; [exact ex_wf'|]. split; [discriminate|].
  split; [|vm_compute; reflexivity]. split; [repeat constructor; intros []|]. intros v s [H|[]]. inversion H; subst. cbn. split; [lia|]. intros x [<-|[]]. cbn. lia.
Qed.
