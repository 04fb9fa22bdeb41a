(** Property C46: trees survive serialisation; property C77: distributions and pickle.

    [writable] (TreeJsonWhole.v) says which trees are considered; C46_learnt,
    C46_conditioned and C46_discrete show that the trees made by learning and
    conditioning are among them. *)
Require Import String QArith ZArith Bool List Arith Lia.
Require Import Verif.Base Verif.NumBase Verif.Json Verif.VarModel Verif.VarSpec Verif.VarProofs Verif.VarProps.
Require Import Verif.DiscreteModel Verif.TreeModel Verif.TreeSpec Verif.TreeApply Verif.TreePosterior Verif.TreeCond Verif.TreeCond2 Verif.TreeDiscrete Verif.TreeWorlds Verif.TreeExample.
Require Import Verif.ImpurityModel Verif.LearnModel Verif.LearnSpec Verif.LearnTree Verif.TreeJson Verif.TreeJsonProofs Verif.TreeJsonWhole Verif.TreeJsonDiscrete.
Import ListNotations.
Open Scope string_scope.
Open Scope list_scope.
Open Scope nat_scope.

(** ** C46: from_json(to_json(t)) and copy() *)

(** The nodes, the root and the priors of two trees are the same, and so are the domains of
    the variables [ws]. *)
Definition same_tree {F : family} {D : Type} (C : codec F D) (ws : list (VarModel.var D num)) (J J' : jpt F) : Prop :=
  innernodes J' = innernodes J /\ leaves J' = leaves J /\ root J' = root J /\ priors J' = priors J /\
  n_vars J' = length ws /\ forall v w, nth_error ws v = Some w -> full J' v = whole C (vdom w).

(** Reading what was written gives the same nodes, paths, priors, distributions and
    hyperparameters, and the same variables with the default settings.

    Partial: the settings of the variables are lost (C46_settings_refuted). *)
Theorem C46_json_partial : forall (F : family) D (C : codec F D) (M : @model F D) dflt, writable C M ->
  exists d M', to_json C M = Ok d /\ from_json C dflt None d = Ok M' /\
    m_vars M' = map reset (m_vars M) /\ m_targets M' = map reset (m_targets M) /\ m_features M' = map reset (m_features M) /\
    m_min_samples M' = m_min_samples M /\ m_min_impurity M' = m_min_impurity M /\ m_max_leaves M' = m_max_leaves M /\ m_max_depth M' = m_max_depth M /\
    vm_map (m_distances M') = vm_map (m_distances M) /\
    vm_map (m_deps M') = map (fun kv => (fst kv, map reset (snd kv))) (vm_map (m_deps M)) /\
    same_tree C (m_vars M) (m_tree M) (m_tree M').
Proof.
  intros F D C M dflt Wr. destruct (whole_round C M reset Wr (fun w => conj eq_refl (conj eq_refl eq_refl)) (reset_eqb C) dflt None (or_intror (conj eq_refl eq_refl))) as (d & dist & E1 & E2 & E3).
  exists d. eexists. split; [exact E1|]. split; [exact E3|]. cbn [m_vars m_targets m_features m_min_samples m_min_impurity m_max_leaves m_max_depth m_distances m_deps m_tree deps_f vm_map].
  do 7 (split; [reflexivity|]). split; [exact E2|]. split; [reflexivity|]. unfold same_tree. cbn [innernodes leaves root priors n_vars full read_tree].
  do 5 (split; [reflexivity|]). intros v w E. unfold fulls. rewrite (map_nth_error reset v _ E). reflexivity.
Qed.
Print Assumptions C46_json_partial.

(** copy() gives the same tree with the same variables. *)
Theorem C46_copy : forall (F : family) D (C : codec F D) (M : @model F D) dflt, writable C M ->
  exists M', copy C dflt M = Ok M' /\
    m_vars M' = m_vars M /\ m_targets M' = m_targets M /\ m_features M' = m_features M /\
    m_min_samples M' = m_min_samples M /\ m_min_impurity M' = m_min_impurity M /\ m_max_leaves M' = m_max_leaves M /\ m_max_depth M' = m_max_depth M /\
    vm_map (m_distances M') = vm_map (m_distances M) /\ vm_map (m_deps M') = vm_map (m_deps M) /\
    same_tree C (m_vars M) (m_tree M) (m_tree M') /\
    (full (m_tree M) = fulls C dflt (m_vars M) -> n_vars (m_tree M) = length (m_vars M) -> m_tree M' = m_tree M).
Proof.
  intros F D C M dflt Wr. destruct (whole_round C M (fun w => w) Wr (fun w => conj eq_refl (conj eq_refl eq_refl)) (fun w E => E) dflt (Some (m_vars M))) as (d & dist & E1 & E2 & E3); [left; rewrite map_id; reflexivity|].
  eexists. split; [unfold copy; rewrite E1; exact E3|]. cbn [m_vars m_targets m_features m_min_samples m_min_impurity m_max_leaves m_max_depth m_distances m_deps m_tree deps_f vm_map]. rewrite !map_id.
  do 7 (split; [reflexivity|]). split; [exact E2|]. split.
  { transitivity (map (fun kv => kv) (vm_map (m_deps M))); [|apply map_id]. apply map_ext. intros [n us]. cbn [fst snd]. rewrite map_id. reflexivity. }
  split.
  { unfold same_tree. cbn [innernodes leaves root priors n_vars full read_tree]. do 5 (split; [reflexivity|]). intros v w E. unfold fulls. rewrite map_id, E. reflexivity. }
  intros Ef En. unfold read_tree. rewrite map_id, <- Ef, <- En. destruct (m_tree M); reflexivity.
Qed.
Print Assumptions C46_copy.

(** *** Equality *)
Section Equal.
  Context {F : family} {D : Type}.
  Variable C : codec F D.
  Hypothesis Sets : forall s, set_same C s s = true.
  Hypothesis Dists : forall d, dist_same C d d = true.
  Notation W := (VarModel.var D num).

  Lemma list_eqb_map : forall A (e : A -> A -> bool) (f : A -> A) l, (forall x, In x l -> e (f x) x = true) -> list_eqb e (map f l) l = true.
  Proof. intros A e f l. induction l as [|x l IH]; intro H; [reflexivity|]. cbn [map list_eqb]. rewrite (H x (or_introl eq_refl)), IH; [reflexivity|]. intros y I. apply H. right. exact I. Qed.
  Lemma list_eqb_refl : forall A (e : A -> A -> bool) l, (forall x, In x l -> e x x = true) -> list_eqb e l l = true.
  Proof. intros A e l H. pose proof (list_eqb_map A e (fun x => x) l H) as E. rewrite map_id in E. exact E. Qed.
  Lemma list_eqb_in : forall A (e : A -> A -> bool) (f : A -> A) l, list_eqb e (map f l) l = true -> forall x, In x l -> e (f x) x = true.
  Proof. intros A e f l. induction l as [|y l IH]; intros H x I; [destruct I|]. cbn [map list_eqb] in H. apply andb_true_iff in H. destruct H as (H1 & H2). destruct I as [<-|I]; [exact H1|exact (IH H2 x I)]. Qed.
  Lemma opt_eqb_refl : forall o, opt_eqb o o = true.
  Proof. intros [x|]; [apply Nat.eqb_refl|reflexivity]. Qed.
  Lemma scalar_eqb_refl : forall s, scalar_eqb s s = true.
  Proof. intros [|z|[q|]]; unfold scalar_eqb; cbn; try reflexivity; apply Qeq_bool_iff; reflexivity. Qed.

  Section One.
    Variables (M : @model F D) (f : W -> W) (dflt : TreeModel.vset F) (dist : vmap W num).
    Hypothesis Wr : writable C M.
    Hypothesis Keep : forall w, vname (f w) = vname w /\ vk (f w) = vk w /\ vdom (f w) = vdom w.
    Notation ws := (m_vars M).
    Let M' := Model (map f ws) (map f (m_targets M)) (map f (m_features M)) (m_min_samples M) (m_min_impurity M) (m_max_leaves M) (m_max_depth M) dist (deps_f M f) (read_tree C M f dflt).

    Lemma varset_f : (forall w, In w ws -> var_eqb C (f w) w = true) -> varset_eqb C (map f ws) ws = true.
    Proof.
      intro H. unfold varset_eqb. rewrite map_length, Nat.eqb_refl. cbn [andb]. apply forallb_forall. intros x I. apply in_map_iff in I. destruct I as (w & <- & Iw). apply existsb_exists. exists w. split; [exact Iw|apply H; exact Iw].
    Qed.
    Lemma at_f : (forall w, In w ws -> var_eqb C (f w) w = true) -> forall v, v < length ws -> at_eqb C (map f ws) ws v v = true.
    Proof.
      intros H v L. unfold at_eqb. destruct (nth_error ws v) as [w|] eqn:E; [|apply nth_error_None in E; lia]. rewrite (map_nth_error f v ws E). apply H. apply nth_error_In in E. exact E.
    Qed.
    Lemma dists_f : (forall w, In w ws -> var_eqb C (f w) w = true) -> forall ds, dists_eqb C (map f ws) ws ds ds = true.
    Proof.
      intros H ds. unfold dists_eqb. rewrite list_eqb_refl by (intros; apply Dists). destruct ds; [reflexivity|]. cbn [andb]. rewrite (varset_f H), andb_true_r. rewrite map_map.
      replace (map (fun x => vname (f x)) ws) with (map vname ws) by (apply map_ext; intro; symmetry; apply Keep). apply list_eqb_refl. intros x _. apply String.eqb_refl.
    Qed.
    Lemma leaf_path_bound : forall l, In l (leaves (m_tree M)) -> forall v s, In (v, s) (l_path l) -> v < length ws.
    Proof.
      intros l I v s Iv. destruct (w_tree C M Wr) as [T|(_ & E & _)]; [|rewrite E in I; destruct I].
      destruct (in_get_leaf _ (ids _ T) l I) as (A & B). assert (G : get_node (m_tree M) (l_idx l) = Some (NLeaf l)) by (unfold get_node; rewrite B, A; reflexivity).
      pose proof (parent_ok _ T _ _ G) as P. cbn [n_parent] in P. destruct (l_parent l) as [p|].
      - destruct P as (n & Gn & Ic). destruct (get_inner_some _ p n Gn) as (In_ & _). apply In_nth_error in Ic. destruct Ic as (k & Ek).
        destruct (nth_error (i_splits n) k) as [s'|] eqn:Es; [|apply nth_error_None in Es; rewrite <- (lengths _ T n In_) in Es; apply nth_error_None in Es; congruence].
        destruct (child_ok _ T n k _ s' In_ Ek Es) as (i' & m & Ei & G' & _ & Pa). injection Ei as <-. rewrite G in G'. injection G' as <-. cbn [n_path] in Pa. rewrite Pa in Iv.
        destruct (w_inner C M Wr n In_) as ((w & Ew & _) & Hp). apply in_app_or in Iv. destruct Iv as [Iv|[E|[]]]; [apply (Hp v s Iv)|]. injection E as <- <-. apply nth_error_Some. congruence.
      - destruct (root_ok _ T) as (r & m & R & Gr & _ & Pa). rewrite P in R. injection R as <-. rewrite G in Gr. injection Gr as <-. cbn [n_path] in Pa. rewrite Pa in Iv. destruct Iv.
    Qed.

    Lemma equal_iff : model_eqb C M' M = true <->
      (forall w, In w ws -> var_eqb C (f w) w = true) /\ (forall w, In w ws -> In w (map snd (vm_vars (m_deps M)))).
    Proof.
      destruct (built_facts C M Wr) as (It & _ & _ & _ & _ & _ & (h & (Am & Av & _)) & Vd & Vm).
      assert (Decl : map snd (vm_declare vname (map f ws)) = map f ws) by (rewrite (declare_f C M f Wr Keep), map_map; reflexivity).
      split.
      - intro E. unfold model_eqb, M' in E. cbn [m_vars m_targets m_features m_min_samples m_min_impurity m_max_leaves m_max_depth m_deps m_tree] in E. rewrite !andb_true_iff in E.
        destruct E as (((((((((_ & _) & _) & _) & _) & _) & Ev) & _) & _) & Ed). pose proof (list_eqb_in _ _ _ _ Ev) as Hv. split; [exact Hv|].
        intros w Iw. unfold deps_eqb in Ed. rewrite !andb_true_iff in Ed. destruct Ed as (_ & Es). unfold varset_eqb in Es. apply andb_true_iff in Es. destruct Es as (_ & Es). cbn [deps_f vm_vars] in Es. rewrite Decl in Es.
        rewrite forallb_forall in Es. specialize (Es (f w) (in_map f _ _ Iw)). apply existsb_exists in Es. destruct Es as (u & Iu & Eu). assert (w = u); [|subst u; exact Iu].
        pose proof Iu as Iu'. apply in_map_iff in Iu'. destruct Iu' as ([n u'] & E & Iu'). cbn [snd] in E. subst u'. apply (same_name ws w u (w_names C M Wr) Iw (proj2 (Vd _ _ Iu'))).
        unfold var_eqb in Eu. rewrite !andb_true_iff in Eu. destruct Eu as (((_ & B) & _) & _). apply String.eqb_eq in B. rewrite <- B. symmetry. apply Keep.
      - intros (Hv & Hd). unfold model_eqb, M'. cbn [m_vars m_targets m_features m_min_samples m_min_impurity m_max_leaves m_max_depth m_deps m_tree read_tree innernodes leaves priors].
        rewrite !Nat.eqb_refl, !scalar_eqb_refl, (dists_f Hv). rewrite (list_eqb_map _ _ f ws Hv), (list_eqb_map _ _ f (m_targets M)) by (intros x Ix; apply Hv; apply It; exact Ix). cbn [andb]. rewrite !andb_true_r, !andb_true_iff. split; [split|].
        + apply forallb_forall. intros n In_. destruct (w_tree C M Wr) as [T|(E & _)]; [|rewrite E in In_; destruct In_].
          rewrite (in_get_inner _ (ids _ T) n In_). unfold inner_eqb. rewrite !Nat.eqb_refl, opt_eqb_refl, list_eqb_refl, list_eqb_refl by (intros; try apply opt_eqb_refl; apply Sets).
          destruct (w_inner C M Wr n In_) as ((w & Ew & _) & _). rewrite (at_f Hv); [reflexivity|]. apply nth_error_Some. congruence.
        + apply forallb_forall. intros l Il. destruct (w_tree C M Wr) as [T|(_ & E & _)]; [|rewrite E in Il; destruct Il].
          rewrite (proj1 (in_get_leaf _ (ids _ T) l Il)). unfold leaf_eqb. rewrite !Nat.eqb_refl, (dists_f Hv). rewrite list_eqb_refl.
          * cbn [andb]. apply Qeq_bool_iff. reflexivity.
          * intros [v s] Iv. cbn [fst snd]. rewrite Sets, andb_true_r. apply (at_f Hv). apply (leaf_path_bound l Il v s Iv).
        + unfold deps_eqb. cbn [deps_f vm_map vm_vars]. rewrite map_length, Nat.eqb_refl. cbn [andb]. apply andb_true_iff. split.
          * apply forallb_forall. intros kv I. apply in_map_iff in I. destruct I as ([n us] & <- & I). cbn [fst snd]. rewrite (dget_nodup _ n us (am_nodup _ _ Am) I). apply list_eqb_map. intros u Iu. apply Hv. apply (Vm n us I). exact Iu.
          * unfold varset_eqb. rewrite Decl, map_length. apply andb_true_iff. split.
            -- apply Nat.eqb_eq. rewrite map_length. assert (Nw : NoDup ws) by (apply (NoDup_map_inv vname); apply (w_names C M Wr)).
               assert (Nv : NoDup (map snd (vm_vars (m_deps M)))). { apply (NoDup_map_inv vname). rewrite map_map. replace (map (fun x => vname (snd x)) (vm_vars (m_deps M))) with (dkeys (vm_vars (m_deps M))); [apply (av_nodup _ _ _ Av)|]. unfold dkeys. apply map_ext_in. intros [n w] I. cbn [fst snd]. apply (Vd n w I). }
               apply Nat.le_antisymm; [rewrite <- (map_length snd (vm_vars (m_deps M))); apply NoDup_incl_length; [exact Nw|exact Hd]|]. rewrite <- (map_length snd (vm_vars (m_deps M))). apply NoDup_incl_length; [exact Nv|]. intros w I. apply in_map_iff in I. destruct I as ([n u] & <- & I). apply (Vd n u I).
            -- apply forallb_forall. intros x I. apply in_map_iff in I. destruct I as (w & <- & Iw). apply existsb_exists. exists w. split; [apply Hd; exact Iw|apply Hv; exact Iw].
    Qed.
  End One.

  (** The tree that is read is equal ([==]) to the one that was written exactly if every
      variable equals itself with default settings and every variable is known to the map
      of dependencies. *)
  Theorem C46_equal : forall M dflt, writable C M -> exists d M', to_json C M = Ok d /\ from_json C dflt None d = Ok M' /\
    (model_eqb C M' M = true <->
     (forall w, In w (m_vars M) -> var_eqb C (reset w) w = true) /\ (forall w, In w (m_vars M) -> In w (map snd (vm_vars (m_deps M))))).
  Proof.
    intros M dflt Wr. destruct (whole_round C M reset Wr (fun w => conj eq_refl (conj eq_refl eq_refl)) (reset_eqb C) dflt None (or_intror (conj eq_refl eq_refl))) as (d & dist & E1 & _ & E3).
    exists d. eexists. split; [exact E1|]. split; [exact E3|]. apply equal_iff; [exact Wr|]. intro w. split; [reflexivity|split; reflexivity].
  Qed.
  (** A copy is equal to the tree exactly if every variable is known to the map of
      dependencies. *)
  Theorem C46_copy_equal : forall M dflt, writable C M -> (forall w, In w (m_vars M) -> var_eqb C w w = true) -> exists M', copy C dflt M = Ok M' /\
    (model_eqb C M' M = true <-> forall w, In w (m_vars M) -> In w (map snd (vm_vars (m_deps M)))).
  Proof.
    intros M dflt Wr R. destruct (whole_round C M (fun w => w) Wr (fun w => conj eq_refl (conj eq_refl eq_refl)) (fun w E => E) dflt (Some (m_vars M))) as (d & dist & E1 & _ & E3); [left; rewrite map_id; reflexivity|].
    eexists. split; [unfold copy; rewrite E1; exact E3|]. rewrite equal_iff; [|exact Wr|intro w; split; [reflexivity|split; reflexivity]]. split; [intros (_ & H); exact H|intro H; split; assumption].
  Qed.
End Equal.
Print Assumptions C46_equal.
Print Assumptions C46_copy_equal.

(** Explicit dependencies make every variable known; the default dependencies know the
    features only. *)
Theorem C46_known : forall (F : family) D (C : codec F D) dflt (vars ts fs : list (VarModel.var D num)) s i ml md its M,
  NoDup (map vname vars) -> mk_model C dflt vars ts fs s i ml md (Some its) = Ok M -> forall w, In w vars -> In w (map snd (vm_vars (m_deps M))).
Proof.
  intros F D C dflt vars ts fs s i ml md its M N E w Iw. unfold mk_model in E. destruct (vm_new vname (map (fun wv => (KVar (fst wv), snd wv)) its) vars) as [dm|] eqn:Ed; [|discriminate E].
  cbn [bind] in E. injection E as <-. cbn [m_deps]. unfold vm_new in Ed. assert (I0 : In (vname w, w) (vm_vars (VM (vm_declare vname vars) ([] : list (string * list (VarModel.var D num)))))). { cbn [vm_vars]. rewrite (declare_map vars N). apply (in_map (fun u => (vname u, u)) vars w Iw). }
  revert I0 Ed. generalize (VM (vm_declare vname vars) ([] : list (string * list (VarModel.var D num)))). induction its as [|[u us] its IH]; intros m I0 Ed; [injection Ed as <-; apply (in_map snd _ _ I0)|].
  cbn [map vm_fill vm_set bind fst snd] in Ed. apply (IH _) in Ed; [exact Ed|]. unfold vm_set_var. cbn [vm_vars]. destruct (dget (vm_vars m) (vname u)) eqn:G; [exact I0|]. rewrite dset_fresh by (apply dget_in; exact G). apply in_or_app. left. exact I0.
Qed.
Print Assumptions C46_known.
Theorem C46_default_dependencies : forall (F : family) D (C : codec F D) dflt (vars ts fs : list (VarModel.var D num)) s i ml md M,
  NoDup (map vname vars) -> incl ts vars -> incl fs vars -> mk_model C dflt vars ts fs s i ml md None = Ok M -> forall w, In w (map snd (vm_vars (m_deps M))) <-> In w (m_features M).
Proof.
  intros F D C dflt vars ts fs s i ml md M N It If E w. unfold mk_model in E. set (ts' := match ts with [] => vars | _ => ts end) in *.
  set (fs' := match ts, fs with [], [] => vars | _ :: _, [] => filter (fun v => negb (existsb (var_eqb C v) ts')) vars | _, _ => fs end) in *.
  assert (Ifs : incl fs' vars). { unfold fs'. destruct ts as [|t0 ts0], fs as [|g0 fs0]; try exact If; [apply incl_refl|]. intros v Iv. apply filter_In in Iv. apply Iv. }
  destruct (vm_new vname (map (fun v => (KVar v, ts')) fs') []) as [dm|] eqn:Ed; [|discriminate E]. cbn [bind] in E. injection E as <-. cbn [m_deps m_features].
  unfold vm_new in Ed. change (vm_declare vname ([] : list (VarModel.var D num))) with ([] : list (string * VarModel.var D num)) in Ed.
  assert (G : forall l m, incl l vars -> (forall n x, In (n, x) (vm_vars m) -> n = vname x /\ In x vars) -> vm_fill vname m (map (fun v => (KVar v, ts')) l) = Ok dm -> (In w (map snd (vm_vars dm)) <-> In w (map snd (vm_vars m)) \/ In w l)).
  { clear Ed. intro l. induction l as [|u l IH]; intros m Il B Ed; [injection Ed as <-; cbn [In]; tauto|]. cbn [map vm_fill vm_set bind] in Ed.
    assert (Iu : In u vars) by (apply Il; left; reflexivity). rewrite (IH _ (fun x I => Il x (or_intror I))) with (2 := Ed).
    - unfold vm_set_var. cbn [vm_vars In]. destruct (dget (vm_vars m) (vname u)) as [x|] eqn:Ex.
      + apply dget_some_in in Ex. destruct (B _ _ Ex) as (Ex' & Ix). assert (u = x) by (apply (same_name vars u x N Iu Ix Ex')). subst x. pose proof (in_map snd _ _ Ex) as Is. cbn [snd] in Is. intuition (subst; auto).
      + rewrite dset_fresh by (apply dget_in; exact Ex). rewrite map_app, in_app_iff. cbn [map snd In]. tauto.
    - intros n x. unfold vm_set_var. cbn [vm_vars]. destruct (dget (vm_vars m) (vname u)) eqn:Ex; [apply B|]. rewrite dset_fresh by (apply dget_in; exact Ex). intro I. apply in_app_or in I. destruct I as [I|[I|[]]]; [apply B; exact I|]. injection I as <- <-. split; [reflexivity|exact Iu]. }
  rewrite (G fs' (VM [] []) Ifs) by (try (intros n x []); exact Ed). cbn [vm_vars map In]. tauto.
Qed.
Print Assumptions C46_default_dependencies.

(** ** The order of the nodes *)
Section Order.
  Context {F : family}.

  (** Number and parent of every decision node. *)
  Definition skel (ns : list (inner F)) : list (nat * option nat) := map (fun n => (i_idx n, i_parent n)) ns.

  Lemma skel_first : forall ns, parents_first ns <-> forall pre i p post, skel ns = pre ++ (i, Some p) :: post -> In p (map fst pre).
  Proof.
    intro ns. unfold parents_first, skel. split.
    - intros H pre i p post E. apply map_eq_app in E. destruct E as (a & b & -> & <- & E). destruct b as [|n b]; [discriminate E|]. cbn [map] in E. injection E as E1 E2 _. rewrite map_map. cbn [fst]. apply (H a n b p eq_refl E2).
    - intros H pre n post p -> E. rewrite map_app in H. cbn [map] in H. specialize (H (map (fun n => (i_idx n, i_parent n)) pre) (i_idx n) p (map (fun n => (i_idx n, i_parent n)) post)). rewrite E in H. specialize (H eq_refl). rewrite map_map in H. exact H.
  Qed.
  Lemma skel_ids : forall ns, map fst (skel ns) = map i_idx ns.
  Proof. intro ns. unfold skel. rewrite map_map. reflexivity. Qed.
  Lemma skel_set : forall n n' ns, NoDup (map i_idx ns) -> In n ns -> i_idx n' = i_idx n -> i_parent n' = i_parent n -> skel (set_inner n' ns) = skel ns.
  Proof.
    intros n n' ns N I Ei Ep. unfold skel, set_inner. rewrite map_map. apply map_ext_in. intros m Im. destruct (Nat.eqb (i_idx m) (i_idx n')) eqn:E; [|reflexivity]. apply Nat.eqb_eq in E. rewrite Ei in E.
    assert (m = n) as ->; [|rewrite Ei, Ep; reflexivity]. clear Ei Ep n'. induction ns as [|x ns IH]; [destruct I|]. cbn [map] in N. apply NoDup_cons_iff in N. destruct N as (N1 & N2).
    destruct I as [->|I], Im as [->|Im]; [reflexivity| | |apply IH; assumption]; exfalso; apply N1; [rewrite <- E|rewrite E]; apply in_map; assumption.
  Qed.
  Lemma first_app : forall l i p, (forall pre j q post, l = pre ++ (j, Some q) :: post -> In q (map fst pre)) -> (forall q, p = Some q -> In q (map fst l)) ->
    forall pre j q post, l ++ [(i, p)] = pre ++ (j, Some q) :: post -> In q (map (@fst nat (option nat)) pre).
  Proof.
    intros l i p H Hp pre j q post E. destruct post as [|x post _] using rev_ind.
    - apply app_inj_tail in E. destruct E as (-> & E). injection E as _ E. apply Hp. exact E.
    - rewrite app_comm_cons, app_assoc in E. apply app_inj_tail in E. destruct E as (E & _). apply (H pre j q post E).
  Qed.
  Lemma filter_split : forall A (g : A -> bool) l pre x post, filter g l = pre ++ x :: post -> exists a b, l = a ++ x :: b /\ filter g a = pre /\ filter g b = post.
  Proof.
    intros A g l. induction l as [|y l IH]; intros pre x post E; [destruct pre; discriminate E|]. cbn [filter] in E. destruct (g y) eqn:G.
    - destruct pre as [|z pre]; cbn [app] in E.
      + injection E as -> E. exists [], l. split; [reflexivity|]. split; [reflexivity|exact E].
      + injection E as -> E. destruct (IH _ _ _ E) as (a & b & -> & E1 & E2). exists (z :: a), b. split; [reflexivity|]. split; [cbn [filter]; rewrite G, E1; reflexivity|exact E2].
    - destruct (IH _ _ _ E) as (a & b & -> & E1 & E2). exists (y :: a), b. split; [reflexivity|]. split; [cbn [filter]; rewrite G; exact E1|exact E2].
  Qed.
  Lemma filter_filter : forall A (g h : A -> bool) l, filter h (filter g l) = filter (fun x => g x && h x) l.
  Proof. intros A g h l. induction l as [|x l IH]; [reflexivity|]. cbn [filter]. destruct (g x); cbn [filter andb]; rewrite IH; reflexivity. Qed.
  Lemma filter_ids : forall (g : nat * option nat -> bool) l, NoDup (map fst l) -> NoDup (map fst (filter g l)).
  Proof.
    intros g l N. induction l as [|x l IH]; [constructor|]. cbn [map] in N. apply NoDup_cons_iff in N. destruct N as (N1 & N2). cbn [filter]. destruct (g x); [|apply IH; exact N2]. cbn [map]. constructor; [|apply IH; exact N2].
    intro I. apply N1. apply in_map_iff in I. destruct I as (y & E & Iy). apply filter_In in Iy. rewrite <- E. apply in_map. apply Iy.
  Qed.

  (** What remains after deleting nodes is in order if every remaining node has its parent. *)
  Lemma kept_first : forall (ns ns' : list (inner F)) g, NoDup (map i_idx ns) -> parents_first ns -> skel ns' = filter g (skel ns) ->
    (forall n p, In n ns' -> i_parent n = Some p -> In p (map i_idx ns')) -> parents_first ns'.
  Proof.
    intros ns ns' g N P E H. rewrite skel_first in P |- *. intros pre i p post E'. assert (Ip : In p (map fst (skel ns'))).
    { rewrite skel_ids. assert (I : In (i, Some p) (skel ns')) by (rewrite E'; apply in_or_app; right; left; reflexivity). apply in_map_iff in I. destruct I as (n & En & In_). injection En as _ En. apply (H n p In_ En). }
    rewrite E in E'. destruct (filter_split _ _ _ _ _ _ E') as (a & b & El & Ea & Eb). specialize (P a i p b El). rewrite <- skel_ids, El, map_app in N. cbn [map fst] in N.
    rewrite E, E', map_app in Ip. cbn [map fst] in Ip. apply in_app_or in Ip. destruct Ip as [Ip|Ip]; [exact Ip|]. exfalso.
    assert (Ib : In p (i :: map fst b)). { destruct Ip as [Ip|Ip]; [left; exact Ip|right]. rewrite <- Eb in Ip. apply in_map_iff in Ip. destruct Ip as (y & Ey & Iy). apply filter_In in Iy. rewrite <- Ey. apply in_map. apply Iy. }
    clear - N P Ib. induction a as [|x a IH]; [destruct P|]. cbn [map app] in N, P. apply NoDup_cons_iff in N. destruct N as (N1 & N2). destruct P as [<-|P]; [apply N1; apply in_or_app; right; exact Ib|apply IH; assumption].
  Qed.

  Definition kept (ns ns' : list (inner F)) : Prop := exists g, skel ns' = filter g (skel ns).
  Lemma kept_refl : forall ns, kept ns ns.
  Proof. intro ns. exists (fun _ => true). symmetry. induction (skel ns) as [|x l IH]; [reflexivity|]. cbn [filter]. rewrite IH. reflexivity. Qed.
  Lemma kept_trans : forall a b c, kept a b -> kept b c -> kept a c.
  Proof. intros a b c (g & E) (h & E'). eexists. rewrite E', E. apply filter_filter. Qed.
  Lemma kept_ids : forall a b, kept a b -> NoDup (map i_idx a) -> NoDup (map i_idx b).
  Proof. intros a b (g & E) N. rewrite <- skel_ids, E. apply filter_ids. rewrite skel_ids. exact N. Qed.
  Lemma kept_del : forall i ns, kept ns (del_inner i ns).
  Proof.
    intros i ns. exists (fun x => negb (Nat.eqb (fst x) i)). unfold skel, del_inner. induction ns as [|n ns IH]; [reflexivity|]. cbn [filter map fst]. destruct (negb (Nat.eqb (i_idx n) i)); cbn [map]; rewrite IH; reflexivity.
  Qed.
  Lemma kept_eq : forall a b, skel b = skel a -> kept a b.
  Proof. intros a b E. destruct (kept_refl a) as (g & G). exists g. rewrite E. exact G. Qed.
  Lemma find_inner : forall (ns : list (inner F)) p n, find (fun m => Nat.eqb (i_idx m) p) ns = Some n -> In n ns /\ i_idx n = p.
  Proof. intros ns p n E. apply find_some in E. destruct E as (I & E). apply Nat.eqb_eq in E. auto. Qed.

  Lemma unlink_kept : forall (J J' : jpt F) i p fr fr', NoDup (map i_idx (innernodes J)) -> unlink J i p fr = Ok (J', fr') -> kept (innernodes J) (innernodes J').
  Proof.
    intros J J' i p fr fr' N E. unfold unlink in E.
    assert (G : forall (J1 : jpt F) fr1, match root J1 with Some r => if Nat.eqb r i then Ok (with_root J1 None, fr1) else Ok (J1, fr1) | None => Ok (J1, fr1) end = Ok (J', fr') -> innernodes J' = innernodes J1).
    { intros J1 fr1 H. destruct (root J1); [destruct (Nat.eqb n i)|]; injection H as <- _; reflexivity. }
    destruct p as [p|].
    - destruct (get_inner J p) as [n|] eqn:Gn; [|discriminate E]. destruct (child_index (i_children n) i); [|discriminate E]. cbn [bind] in E. apply G in E. rewrite E. cbn [innernodes with_nodes]. apply kept_eq.
      apply (skel_set n); [exact N|exact (proj1 (find_inner _ _ _ Gn))|reflexivity|reflexivity].
    - cbn [bind] in E. apply G in E. rewrite E. apply kept_refl.
  Qed.
  Lemma cond_loop_kept : forall fuel e (J J' : jpt F) fr, NoDup (map i_idx (innernodes J)) -> cond_loop fuel e J fr = Ok J' -> kept (innernodes J) (innernodes J').
  Proof.
    intro fuel. induction fuel as [|fuel IH]; intros e J J' fr N E; (destruct fr as [|i fr]; [injection E as <-; apply kept_refl|]); [discriminate E|]. cbn [cond_loop] in E. destruct (get_node J i) as [[n|l]|]; [| |apply (IH _ _ _ _ N E)].
    - destruct (i_children n) as [|c1 [|c2 [|c3 cs]]]; try apply (IH _ _ _ _ N E).
      + destruct (unlink _ i (i_parent n) fr) as [[J1 f1]|] eqn:U; [|discriminate E]. cbn [bind fst snd] in E.
        pose proof (kept_del i (innernodes J)) as K1. apply unlink_kept in U; [|apply (kept_ids _ _ K1 N)]. cbn [innernodes with_nodes] in U. pose proof (kept_trans _ _ _ K1 U) as K. apply (kept_trans _ _ _ K). apply (IH _ _ _ _ (kept_ids _ _ K N) E).
      + destruct (all_some [c1; c2]); [apply (IH _ _ _ _ N E)|discriminate E].
    - destruct (leaf_probability l e 1) as [x|]; [|discriminate E]. cbn [bind] in E. destruct (Qltb 0 x); [apply (IH _ (with_nodes J (innernodes J) _) _ _ N E)|].
      destruct (unlink _ i (l_parent l) fr) as [[J1 f1]|] eqn:U; [|discriminate E]. cbn [bind fst snd] in E. apply unlink_kept in U; [|exact N]. cbn [innernodes with_nodes] in U. apply (kept_trans _ _ _ U). apply (IH _ _ _ _ (kept_ids _ _ U N) E).
  Qed.
  Lemma conditional_kept : forall (J J' : jpt F) e fail, NoDup (map i_idx (innernodes J)) -> conditional_jpt J e fail = Ok (Some J') -> kept (innernodes J) (innernodes J').
  Proof.
    intros J J' e fail N E. unfold conditional_jpt in E. destruct e as [|c e]; [injection E as <-; apply kept_refl|]. destruct (root J); [|discriminate E].
    destruct (cond_loop _ (c :: e) J [n]) as [J1|] eqn:L; [|discriminate E]. cbn [bind] in E. destruct (Qeq_bool _ 0); [destruct fail; discriminate E|]. destruct (mapM _ (leaves J1)) as [ls|]; [|discriminate E]. cbn [bind] in E.
    destruct (posterior _ _ [] true) as [ps|]; [|discriminate E]. cbn [bind] in E. assert (X : innernodes J' = innernodes J1) by (destruct ps; injection E as <-; reflexivity). rewrite X. apply (cond_loop_kept _ _ _ _ _ N L).
  Qed.
  Lemma merge_kept : forall (J J' : jpt F) n l r o, NoDup (map i_idx (innernodes J)) -> merge_leaves J n l r = Ok (J', o) -> kept (innernodes J) (innernodes J').
  Proof.
    intros J J' n l r o N E. unfold merge_leaves in E. destruct (UtilModel.normalized _ _ _ _) as [ws|]; [|discriminate E]. cbn [bind] in E. destruct (merge_dists _ _ _ _) as [ds|]; [|discriminate E]. cbn [bind] in E.
    pose proof (kept_del (i_idx n) (innernodes J)) as K. destruct (i_parent n) as [p|].
    - destruct (find _ (del_inner (i_idx n) (innernodes J))) as [pn|] eqn:Fp; [|discriminate E]. destruct (child_index (i_children pn) (i_idx n)) as [k|]; [|discriminate E]. unfold set_child_leaf in E. destruct (nth_error (i_splits pn) k); [|discriminate E]. cbn [bind fst snd] in E.
      injection E as <- _. cbn [innernodes with_nodes]. apply (kept_trans _ _ _ K). apply kept_eq. apply (skel_set pn); [apply (kept_ids _ _ K N)|exact (proj1 (find_inner _ _ _ Fp))|reflexivity|reflexivity].
    - injection E as <- _. exact K.
  Qed.
  Lemma prune_kept : forall fuel t (J J' : jpt F) q, NoDup (map i_idx (innernodes J)) -> prune_loop fuel t J q = Ok J' -> kept (innernodes J) (innernodes J').
  Proof.
    intro fuel. induction fuel as [|fuel IH]; intros t J J' q N E; (destruct q as [|i q]; [injection E as <-; apply kept_refl|]); [discriminate E|]. cbn [prune_loop] in E. destruct (get_inner J i) as [n|]; [|apply (IH _ _ _ _ N E)].
    destruct (i_children n) as [|[a|] [|[b|] [|c cs]]]; try discriminate E. destruct (get_inner J a), (get_inner J b), (get_leaf J a) as [l|], (get_leaf J b) as [r|]; try apply (IH _ _ _ _ N E).
    destruct (similarity J n l r) as [x|]; [|apply (IH _ _ _ _ N E)]. destruct (Qltb x t); [apply (IH _ _ _ _ N E)|]. destruct (merge_leaves J n l r) as [[J1 o]|] eqn:M; [|discriminate E]. cbn [bind fst snd] in E.
    apply merge_kept in M; [|exact N]. apply (kept_trans _ _ _ M). destruct o; apply (IH _ _ _ _ (kept_ids _ _ M N) E).
  Qed.
  Lemma tree_parents : forall J : jpt F, tree_ok J -> forall n p, In n (innernodes J) -> i_parent n = Some p -> In p (map i_idx (innernodes J)).
  Proof.
    intros J T n p I E. pose proof (in_get_inner _ (ids _ T) n I) as G. assert (G' : get_node J (i_idx n) = Some (NInner n)) by (unfold get_node; rewrite G; reflexivity). pose proof (parent_ok _ T _ _ G') as P. cbn [n_parent] in P. rewrite E in P. destruct P as (m & Gm & _). destruct (get_inner_some _ _ _ Gm) as (Im & <-). apply in_map. exact Im.
  Qed.
  Lemma tree_inner_ids : forall J : jpt F, tree_ok J -> NoDup (map i_idx (innernodes J)).
  Proof.
    intros J T. pose proof (ids _ T) as N. clear T. revert N. generalize (map l_idx (leaves J)). intros l2 N. induction (map i_idx (innernodes J)) as [|x l IH]; [constructor|]. cbn [app] in N. apply NoDup_cons_iff in N. destruct N as (N1 & N2). constructor; [intro I; apply N1; apply in_or_app; left; exact I|apply IH; exact N2].
  Qed.
End Order.

(** Learning lists every decision node after its parent. *)
Theorem C46_learnt : forall (F : family) val inf neg1 D imp kinds mk mid fit min_improvement max_depth (full : TreeModel.var -> TreeModel.vset F) N J,
  learn val inf neg1 D imp kinds mk mid fit min_improvement max_depth full N = Ok J -> parents_first (innernodes J).
Proof.
  intros F val inf neg1 D imp kinds mk mid fit mi md full N J E. unfold learn in E. destruct (Nat.eqb N 0); [discriminate E|]. destruct (mapM (fit (seq 0 N)) (seq 0 (length kinds))) as [ps|]; [|discriminate E]. cbn [bind] in E.
  set (Inv := fun J : jpt F => parents_first (innernodes J) /\ NoDup (map i_idx (innernodes J)) /\ forall x, In x (map i_idx (innernodes J)) -> x < n_nodes J).
  assert (L : forall (J J1 : jpt F) h i path, Inv J -> link J h i = Ok (J1, path) -> skel (innernodes J1) = skel (innernodes J) /\ leaves J1 = leaves J /\ (forall q, parent_idx h = Some q -> In q (map i_idx (innernodes J)))).
  { clear. intros J J1 h i path (_ & N & _) E. unfold link in E. destruct h as [[p k]|].
    - destruct (get_inner J p) as [n|] eqn:G; [|discriminate E]. destruct (nth_error (i_splits n) k); [|discriminate E]. injection E as <- _. cbn [innernodes leaves with_nodes]. destruct (find_inner _ _ _ G) as (I & Ei). split; [apply (skel_set n); [exact N|exact I|reflexivity|reflexivity]|]. split; [reflexivity|]. intros q Eq. injection Eq as <-. rewrite <- Ei. apply in_map. exact I.
    - injection E as <- _. split; [reflexivity|]. split; [reflexivity|discriminate]. }
  assert (Step : forall c st st', Inv (s_tree st) -> c45 val inf neg1 D imp kinds mk mid fit mi md N c st = Ok st' -> Inv (s_tree st')).
  { intros c st st' I S. unfold c45 in S. destruct (compute_best_split _ _ _ _ _ _) as [s|]; [|discriminate S]. cbn [bind] in S. destruct (gain_allows mi (gain s) && depth_allows md (c_depth c)).
    - destruct (best_var s) as [v|]; [|discriminate S]. destruct (best_split_pos s) as [p|]; [|discriminate S]. destruct (nth_error _ (c_start c + p)); [|discriminate S]. destruct (nth_error _ (c_start c + p + 1)); [|discriminate S].
      destruct (make_splits _ _ _ _ _ _ _) as [sp|]; [|discriminate S]. cbn [bind] in S. destruct (link (s_tree st) (c_parent c) (n_nodes (s_tree st))) as [[J1 path]|] eqn:K; [|discriminate S]. cbn [bind fst snd] in S. injection S as <-. cbn [s_tree].
      destruct (L _ _ _ _ _ I K) as (E1 & E2 & Hq). destruct I as (P & Nd & B). unfold set_root, with_nodes, Inv. cbn [innernodes leaves].
      assert (Sk : forall n, skel (innernodes J1 ++ [n]) = skel (innernodes (s_tree st)) ++ [(i_idx n, i_parent n)]) by (intro n2; unfold skel in *; rewrite map_app, E1; reflexivity).
      assert (Ids : forall n, map i_idx (innernodes J1 ++ [n]) = map i_idx (innernodes (s_tree st)) ++ [i_idx n]) by (intro n2; rewrite map_app, <- !skel_ids, E1; reflexivity).
      split; [|split].
      + rewrite skel_first, Sk. cbn [i_idx i_parent]. intros pre i p' post. apply first_app; [rewrite skel_first in P; exact P|]. intros q Eq. rewrite skel_ids. apply Hq. exact Eq.
      + rewrite Ids. cbn [i_idx]. apply (Permutation.Permutation_NoDup (Permutation.Permutation_cons_append _ _)). constructor; [|exact Nd]. intro I. apply B in I. lia.
      + intros x Ix. rewrite Ids in Ix. cbn [i_idx] in Ix. unfold n_nodes. cbn [innernodes leaves]. rewrite app_length, E2. cbn [length]. assert (Le : length (innernodes J1) = length (innernodes (s_tree st))) by (rewrite <- (map_length i_idx), <- skel_ids, E1, skel_ids, map_length; reflexivity). rewrite Le.
        apply in_app_or in Ix. unfold n_nodes in B. destruct Ix as [Ix|[<-|[]]]; [apply B in Ix; lia|]. unfold n_nodes. lia.
    - match type of S with bind ?m _ = _ => destruct m as [ds|]; [|discriminate S] end. cbn [bind] in S. destruct (link (s_tree st) (c_parent c) (n_nodes (s_tree st))) as [[J1 path]|] eqn:K; [|discriminate S]. cbn [bind fst snd] in S. injection S as <-. cbn [s_tree].
      destruct (L _ _ _ _ _ I K) as (E1 & E2 & _). destruct I as (P & Nd & B). unfold set_root, with_nodes, Inv. cbn [innernodes leaves]. split; [|split].
      + rewrite skel_first in P |- *. rewrite E1. exact P.
      + rewrite <- skel_ids, E1, skel_ids. exact Nd.
      + intros x Ix. rewrite <- skel_ids, E1, skel_ids in Ix. apply B in Ix. unfold n_nodes in *. cbn [innernodes leaves]. rewrite app_length, E2. assert (Le : length (innernodes J1) = length (innernodes (s_tree st))) by (rewrite <- (map_length i_idx), <- skel_ids, E1, skel_ids, map_length; reflexivity). rewrite Le. lia. }
  assert (G : forall fuel st, Inv (s_tree st) -> run val inf neg1 D imp kinds mk mid fit mi md fuel N st = Ok J -> Inv J).
  { intro fuel. induction fuel as [|fuel IH]; intros st I R; cbn [run] in R; destruct (s_queue st) as [|c q]; try (injection R as <-; exact I); [discriminate R|]. destruct (c45 _ _ _ _ _ _ _ _ _ _ _ _ _ _) as [st'|] eqn:S; [|discriminate R]. cbn [bind] in R. apply (IH _) in R; [exact R|]. apply Step in S; [exact S|exact I]. }
  apply G in E; [apply E|]. cbn [s_tree]. unfold Inv. cbn [innernodes]. split; [|split; [constructor|intros x []]]. intros [|] n post p X; discriminate X.
Qed.
Print Assumptions C46_learnt.

(** Conditioning and pruning keep that order, as long as their result is a tree. *)
Theorem C46_conditioned : forall (F : family) (J J' : jpt F) e fail, tree_ok J -> parents_first (innernodes J) -> conditional_jpt J e fail = Ok (Some J') -> tree_ok J' -> parents_first (innernodes J').
Proof.
  intros F J J' e fail T P E T'. destruct (conditional_kept J J' e fail (tree_inner_ids J T) E) as (g & K). apply (kept_first _ _ g (tree_inner_ids J T) P K). apply tree_parents. exact T'.
Qed.
Print Assumptions C46_conditioned.
Theorem C46_pruned : forall (F : family) (J J' : jpt F) threshold, tree_ok J -> parents_first (innernodes J) -> prune J threshold = Ok J' -> tree_ok J' -> parents_first (innernodes J').
Proof.
  intros F J J' t T P E T'. destruct (prune_kept _ t J J' _ (tree_inner_ids J T) E) as (g & K). apply (kept_first _ _ g (tree_inner_ids J T) P K). apply tree_parents. exact T'.
Qed.
Print Assumptions C46_pruned.

(** ** Trees over symbolic and integer variables *)

(** The type of a variable is one the library constructs, of the kind of the variable. *)
Definition made_type (t : dtype) : Prop :=
  match t with SymType c ls => symbolic_type c ls = Ok t | IntType c lo hi => integer_type c lo hi = Ok t end.
Definition fits (k : vkind) (t : dtype) : Prop :=
  match k, t with KSymbolic, SymType _ _ | KInteger, IntType _ _ _ => True | _, _ => False end.

Lemma type_round : forall t, made_type t -> type_from_json (type_to_json t) = Ok t.
Proof.
  intros [c ls|c lo hi] H; unfold made_type in H; cbn [type_to_json]; unfold type_from_json; cbn.
  - rewrite mapM_map. rewrite (mapM_ok _ _ _ (fun x => x)) by (intros [z|s] _; reflexivity). rewrite map_id. cbn [bind]. exact H.
  - exact H.
Qed.
Lemma nats_round : forall k (s : list nat), k <> KNumeric -> nats_parse k (JList (map (fun x => JInt (Z.of_nat x)) s)) = Ok s.
Proof.
  intros k s H. destruct k; [congruence| |]; cbn [nats_parse jiter bind]; rewrite mapM_map, (mapM_ok _ _ _ (fun x => x)); try (rewrite map_id; reflexivity); intros x _; cbn [nat_parse]; rewrite Nat2Z.id; reflexivity.
Qed.
Lemma inst_round : forall t (d : ddist), d_dom d = dom_of t -> length (d_params d) = n_values (dom_of t) -> inst_from_json t (inst_to_json d) = Ok d.
Proof.
  intros t [D ps] E L. cbn [d_dom d_params] in *. subst D. unfold inst_from_json, inst_to_json. cbn [jget obj_get String.eqb Ascii.eqb Bool.eqb bind d_params]. cbn. rewrite map_length, L, Nat.eqb_refl, mapM_map, (mapM_ok _ _ _ (fun x => x)) by reflexivity. rewrite map_id. reflexivity.
Qed.

(** The trees of TreeWorlds.v, over variables with matching types and distinct names, built
    by the constructor, are writable: their node lists only have to be in order.  Learning,
    conditioning and pruning provide this (C46_learnt, C46_conditioned, C46_pruned). *)
Theorem C46_discrete : forall (M : @model discrete dtype),
  NoDup (map vname (m_vars M)) -> (forall w, In w (m_vars M) -> made_type (vdom w) /\ fits (vk w) (vdom w)) ->
  wf_tree (map (fun w => dom_of (vdom w)) (m_vars M)) (m_tree M) -> parents_first (innernodes (m_tree M)) ->
  (forall n, In n (innernodes (m_tree M)) -> i_var n < length (m_vars M) /\ forall v s, In (v, s) (i_path n) -> v < length (m_vars M)) ->
  Forall2 (fun w d => d_dom d = dom_of (vdom w) /\ length (d_params d) = n_values (dom_of (vdom w))) (m_vars M) (priors (m_tree M)) \/ priors (m_tree M) = [] ->
  as_constructed dcodec M -> m_distances M = VM (vm_declare vname (m_vars M)) [] -> writable dcodec M.
Proof.
  intros M N Ty Wf Po In_ Pr Bu Di.
  assert (Loss : forall ds : list ddist, Forall2 (fun w d => d_dom d = dom_of (vdom w) /\ length (d_params d) = n_values (dom_of (vdom w))) (m_vars M) ds -> length ds = length (m_vars M) /\ dists_lossless dcodec (m_vars M) ds).
  { intros ds H. split; [symmetry; clear - H; induction H; cbn [length]; congruence|]. unfold dists_lossless. clear - H. induction H as [|w d ws ds (E & L) _ IH]; intros v x u Ev Eu; [destruct v; discriminate Ev|].
    destruct v as [|v]; cbn [nth_error] in Ev, Eu; [injection Ev as <-; injection Eu as <-; apply inst_round; assumption|]. apply (IH v x u Ev Eu). }
  constructor.
  - exact N.
  - left. apply (wt_tree _ _ Wf).
  - exact Po.
  - intros n I. destruct (In_ n I) as (L & Lp). split; [|exact Lp]. destruct (nth_error (m_vars M) (i_var n)) as [w|] eqn:E; [|apply nth_error_None in E; lia]. exists w. split; [reflexivity|]. intros s _. apply nats_round.
    destruct (Ty w (nth_error_In _ _ E)) as (_ & H). intro K. rewrite K in H. exact H.
  - intros l I. apply Loss. pose proof (wt_leaves _ _ Wf) as Fl. rewrite Forall_forall in Fl. pose proof (wl_dists _ _ (Fl l I)) as H. clear - H. revert H. generalize (l_dists l : list ddist). induction (m_vars M) as [|w ws IH]; intros ds H; cbn [map] in H; inversion H as [|D d Ds ds' (A & B & _) H' E1 E2]; subst; constructor; [split; assumption|apply IH; exact H'].
  - destruct Pr as [Pr|E]; [destruct (Loss _ Pr) as (L & Ls); split; [left; exact L|exact Ls]|]. rewrite E. split; [right; reflexivity|]. intros [|v] d w X; discriminate X.
  - intros w I. apply type_round. apply (Ty w I).
  - exact Bu.
  - rewrite Di. apply (made_new vname (m_vars M)). reflexivity.
  - rewrite Di. intros n [].
Qed.
Print Assumptions C46_discrete.

Lemma nats_same_refl : forall s : list nat, nats_same s s = true.
Proof. intro s. unfold nats_same. rewrite andb_diag. apply forallb_forall. intros x I. apply existsb_exists. exists x. split; [exact I|apply Nat.eqb_refl]. Qed.
Lemma ddist_eqb_refl : forall d, ddist_eqb d d = true.
Proof.
  intros [D ps]. unfold ddist_eqb. cbn [d_dom d_params]. apply andb_true_iff. split; [|apply list_eqb_refl; intros q _; apply Qeq_bool_iff; reflexivity].
  destruct D as [ls|lo hi]; cbn [dom_eqb]; [apply list_eqb_refl; intros [z|] _; [apply Z.eqb_refl|reflexivity]|rewrite !Z.eqb_refl; reflexivity].
Qed.
Lemma label_eqb_refl : forall l, label_eqb l l = true.
Proof. intros [z|s]; [apply Z.eqb_refl|apply String.eqb_refl]. Qed.
Lemma type_equiv_refl : forall t, type_equiv t t = true.
Proof. intros [c ls|c lo hi]; cbn [type_equiv]; rewrite String.eqb_refl, ?Z.eqb_refl; [|reflexivity]. cbn [andb]. induction ls as [|l ls IH]; [reflexivity|]. cbn [labels_eqb]. rewrite label_eqb_refl. exact IH. Qed.

(** For discrete variables the settings are all that can make a variable differ from what
    is read, so that a tree with untouched settings, and in which every variable is known to
    the dependencies, is equal to its image. *)
Theorem C46_discrete_equal : forall (M : @model discrete dtype) dflt, writable dcodec M ->
  exists d M', to_json dcodec M = Ok d /\ from_json dcodec dflt None d = Ok M' /\
    (model_eqb dcodec M' M = true <->
     (forall w, In w (m_vars M) -> settings_eqb (defaults (Some 0%Q : num) (Some (1 # 100)%Q) (vk w)) (VarModel.vset w) = true) /\
     (forall w, In w (m_vars M) -> In w (map snd (vm_vars (m_deps M))))).
Proof.
  intros M dflt Wr. destruct (C46_equal dcodec (nats_same_refl : forall s : TreeModel.vset discrete, set_same dcodec s s = true) (ddist_eqb_refl : forall d : dist discrete, dist_same dcodec d d = true) M dflt Wr) as (d & M' & E1 & E2 & H). exists d, M'. split; [exact E1|]. split; [exact E2|]. rewrite H.
  assert (K : forall w : VarModel.var dtype num, var_eqb dcodec (reset w) w = settings_eqb (defaults (Some 0%Q : num) (Some (1 # 100)%Q) (vk w)) (VarModel.vset w)).
  { intro w. unfold var_eqb. cbn [reset vk vname vdom VarModel.vset dom_equiv dcodec]. rewrite String.eqb_refl, type_equiv_refl. destruct (vk w); reflexivity. }
  split; intros (A & B); (split; [|exact B]); intros w I; specialize (A w I); [rewrite <- K|rewrite K]; exact A.
Qed.
Print Assumptions C46_discrete_equal.

(** *** Examples: the tree of TreeExample.v *)
Definition exX (s : list (string * num)) : VarModel.var dtype num := Var KSymbolic "x" (SymType "X" [LInt 0; LInt 1; LInt 2]) s.
Definition exY : VarModel.var dtype num := Var KInteger "y" (IntType "Y" 0 1) (defaults (Some 0%Q : num) (Some (1 # 100)%Q) KInteger).
Definition dfl : list (string * num) := defaults (Some 0%Q : num) (Some (1 # 100)%Q) KSymbolic.
Definition ex_model (s : list (string * num)) (ts : list (VarModel.var dtype num)) : @model discrete dtype :=
  match mk_model dcodec [] [exX s; exY] ts [] (SInt 1) SNone SNone SNone None with
  | Ok M => with_tree M ex
  | Err _ => Model [] [] [] SNone SNone SNone SNone (VM [] []) (VM [] []) ex
  end.
Lemma ex_writable : forall s ts, incl ts [exX s; exY] -> writable dcodec (ex_model s ts).
Proof.
  intros s ts I.
  assert (V : m_vars (ex_model s ts) = [exX s; exY] /\ m_tree (ex_model s ts) = ex /\ m_distances (ex_model s ts) = VM (vm_declare vname [exX s; exY]) [] /\ as_constructed dcodec (ex_model s ts)).
  { unfold ex_model, as_constructed. destruct (mk_model dcodec [] [exX s; exY] ts [] (SInt 1) SNone SNone SNone None) as [M0|e] eqn:E.
    - assert (X : m_vars M0 = [exX s; exY] /\ m_distances M0 = VM (vm_declare vname [exX s; exY]) []). { unfold mk_model in E. match type of E with bind ?m _ = _ => destruct m; [|discriminate E] end. cbn [bind] in E. injection E as <-. split; reflexivity. }
      destruct X as (X1 & X2). cbn [with_tree m_vars m_tree m_distances]. split; [exact X1|]. split; [reflexivity|]. split; [exact X2|].
      rewrite X1. exists [], ts, [], (SInt 1), SNone, SNone, SNone, None, M0. split; [exact E|]. split; [exact I|]. split; [intros w []|]. split; [discriminate|]. do 6 (split; [reflexivity|]). reflexivity.
    - exfalso. unfold mk_model, vm_new in E.
      assert (G : forall c l m, exists m', vm_fill vname m (map (fun v : VarModel.var dtype num => (KVar v, c : list (VarModel.var dtype num))) l) = Ok m') by (clear; intros c l; induction l as [|x l IH]; intro m; [exists m; reflexivity|]; cbn [map vm_fill vm_set bind]; apply IH).
      match type of E with context [vm_fill vname ?m (map (fun v => (KVar v, ?c)) ?l)] => destruct (G c l m) as (m' & Em); rewrite Em in E end. discriminate E. }
  destruct V as (V1 & V2 & V3 & V4). apply C46_discrete.
  - rewrite V1. cbn. repeat constructor; cbn; intuition discriminate.
  - rewrite V1. intros w [<-|[<-|[]]]; split; reflexivity || exact Logic.I.
  - rewrite V1, V2. exact ex_wf.
  - rewrite V2. intros pre n post p E Ep. destruct pre as [|a [|b pre]]; cbn in E; injection E; intros; subst; try discriminate Ep; [cbn in Ep |- *; injection Ep as <-; left; reflexivity|destruct pre; discriminate].
  - rewrite V1, V2. intros n [<-|[<-|[]]]; cbn; (split; [lia|]); intros v s' [E|[]] || intros v s' []; injection E as <- _; lia.
  - rewrite V2. right. reflexivity.
  - exact V4.
  - rewrite V1. exact V3.
Qed.

(** The example tree survives, and is equal to its image. *)
Example C46_example : exists d M', to_json dcodec (ex_model dfl []) = Ok d /\ from_json dcodec [] None d = Ok M' /\
  same_tree dcodec [exX dfl; exY] ex (m_tree M') /\ model_eqb dcodec M' (ex_model dfl []) = true.
Proof.
  destruct (C46_json_partial _ _ dcodec (ex_model dfl []) [] (ex_writable dfl [] (incl_nil_l _))) as (d & M' & E1 & E2 & _ & _ & _ & _ & _ & _ & _ & _ & _ & S). exists d, M'. split; [exact E1|]. split; [exact E2|]. split; [exact S|].
  destruct (C46_discrete_equal (ex_model dfl []) [] (ex_writable dfl [] (incl_nil_l _))) as (d' & M2 & E1' & E2' & H). rewrite E1 in E1'. injection E1' as <-. rewrite E2 in E2'. injection E2' as <-. apply H. split; intros w [<-|[<-|[]]]; try reflexivity; vm_compute; auto.
Qed.

(** *** What fails *)

(** A setting other than the default is lost. *)
Theorem C46_settings_refuted : exists M : @model discrete dtype, writable dcodec M /\
  exists d M', to_json dcodec M = Ok d /\ from_json dcodec [] None d = Ok M' /\ model_eqb dcodec M' M = false /\
    map (@VarModel.vset dtype num) (m_vars M') <> map (@VarModel.vset dtype num) (m_vars M).
Proof.
  set (st := [("min_impurity_improvement", Some (1 # 2)%Q : num)]). assert (Wr : writable dcodec (ex_model st [])) by (apply ex_writable; apply incl_nil_l).
  exists (ex_model st []). split; [exact Wr|]. destruct (C46_json_partial _ _ dcodec _ [] Wr) as (d & M' & E1 & E2 & V & _). exists d, M'. split; [exact E1|]. split; [exact E2|]. split; [|rewrite V; discriminate].
  destruct (C46_discrete_equal _ [] Wr) as (d' & M2 & E1' & E2' & H). rewrite E1 in E1'. injection E1' as <-. rewrite E2 in E2'. injection E2' as <-. apply not_true_iff_false. intro T. apply H in T. destruct T as (T & _). specialize (T (exX st) (or_introl eq_refl)). discriminate T.
Qed.
Print Assumptions C46_settings_refuted.

(** With default settings: a tree with a target variable has default dependencies for its
    features only, and differs from its image and from its own copy. *)
Theorem C46_targets_refuted : exists M : @model discrete dtype, writable dcodec M /\
  (forall w, In w (m_vars M) -> var_eqb dcodec (reset w) w = true) /\
  exists d M' M2, to_json dcodec M = Ok d /\ from_json dcodec [] None d = Ok M' /\ copy dcodec [] M = Ok M2 /\
    model_eqb dcodec M' M = false /\ model_eqb dcodec M2 M = false.
Proof.
  exists (ex_model dfl [exY]). split; [apply ex_writable; intros w [<-|[]]; right; left; reflexivity|]. split; [intros w [<-|[<-|[]]]; reflexivity|].
  assert (Wr : writable dcodec (ex_model dfl [exY])) by (apply ex_writable; intros w [<-|[]]; right; left; reflexivity).
  assert (No : ~ forall w, In w (m_vars (ex_model dfl [exY])) -> In w (map snd (vm_vars (m_deps (ex_model dfl [exY]))))) by (intro H; specialize (H exY (or_intror (or_introl eq_refl))); destruct H as [H|[]]; discriminate H).
  destruct (C46_discrete_equal _ [] Wr) as (d & M' & E1 & E2 & H). destruct (C46_copy_equal dcodec (nats_same_refl : forall s : TreeModel.vset discrete, set_same dcodec s s = true) (ddist_eqb_refl : forall d : dist discrete, dist_same dcodec d d = true) _ [] Wr) as (M2 & E3 & H2); [intros w [<-|[<-|[]]]; reflexivity|].
  exists d, M', M2. split; [exact E1|]. split; [exact E2|]. split; [exact E3|]. split; apply not_true_iff_false; intro T; apply No; [apply H in T; apply T|apply H2; exact T].
Qed.
Print Assumptions C46_targets_refuted.

(** ** C77: pickling a distribution *)

(** [pickle.loads(pickle.dumps(d))] and [copy.deepcopy(d)] read what [d] wrote with
    [__setstate__]: this fails for every symbolic and integer distribution, although
    from_json of its type reads the same data. *)
Theorem C77_pickle_refuted : forall d : ddist, setstate (inst_to_json d) = Err KeyError.
Proof. intro d. reflexivity. Qed.
Print Assumptions C77_pickle_refuted.
Theorem C77_json_partial : forall t (d : ddist), d_dom d = dom_of t -> length (d_params d) = n_values (dom_of t) -> inst_from_json t (inst_to_json d) = Ok d.
Proof. exact inst_round. Qed.
Print Assumptions C77_json_partial.
(** Types survive, under [Distribution.from_json]. *)
Theorem C77_type : forall t, made_type t -> type_from_json (type_to_json t) = Ok t.
Proof. exact type_round. Qed.
Print Assumptions C77_type.
Example C77_example : made_type (SymType "X" [LInt 0; LStr "a"]) /\ made_type (IntType "Y" 3 5) /\ symbolic_type "X" [LInt 0; LInt 0] = Err ValueError.
Proof. repeat split. Qed.
