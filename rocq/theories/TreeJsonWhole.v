(** Writing and reading a whole tree. *)
Require Import String QArith ZArith Bool List Arith Lia.
Require Import Verif.Base Verif.NumBase Verif.Json Verif.VarModel Verif.VarSpec Verif.VarProofs Verif.VarProps.
Require Import Verif.TreeModel Verif.TreeSpec Verif.TreeApply Verif.TreePosterior Verif.TreeCond Verif.TreeCond2 Verif.LearnModel Verif.LearnTree Verif.TreeJson Verif.TreeJsonProofs.
Import ListNotations.
Open Scope string_scope.
Open Scope list_scope.
Open Scope nat_scope.

Section Whole.
  Context {F : family} {D : Type}.
  Variable C : codec F D.
  Notation W := (VarModel.var D num).

  (** The hyperparameters are as the constructor leaves them. *)
  Definition as_constructed (M : @model F D) : Prop :=
    exists dflt ts fs s i ml md deps M0, mk_model C dflt (m_vars M) ts fs s i ml md deps = Ok M0 /\
      incl ts (m_vars M) /\ incl fs (m_vars M) /\
      (forall its, deps = Some its -> forall w us, In (w, us) its -> In w (m_vars M) /\ incl us (m_vars M)) /\
      m_targets M = m_targets M0 /\ m_features M = m_features M0 /\ m_min_samples M = m_min_samples M0 /\ m_min_impurity M = m_min_impurity M0 /\
      m_max_leaves M = m_max_leaves M0 /\ m_max_depth M = m_max_depth M0 /\ m_deps M = m_deps M0.

  (** The trees whose serialisation is considered: the variables have distinct names; the
      nodes form a tree (or there is none) and are listed parents first; every leaf has a
      distribution for every variable; minimal distances belong to numeric variables; and
      domains, splits and distributions survive their own serialisation. *)
  Record writable (M : @model F D) : Prop := Writable {
    w_names : NoDup (map vname (m_vars M));
    w_tree : tree_ok (m_tree M) \/ (innernodes (m_tree M) = [] /\ leaves (m_tree M) = [] /\ root (m_tree M) = None);
    w_order : parents_first (innernodes (m_tree M));
    w_inner : forall n, In n (innernodes (m_tree M)) -> inner_lossless C (m_vars M) n;
    w_leaves : forall l, In l (leaves (m_tree M)) -> length (l_dists l) = length (m_vars M) /\ dists_lossless C (m_vars M) (l_dists l);
    w_priors : (length (priors (m_tree M)) = length (m_vars M) \/ priors (m_tree M) = []) /\ dists_lossless C (m_vars M) (priors (m_tree M));
    w_doms : forall w, In w (m_vars M) -> dom_parse C (dom_json C (vdom w)) = Ok (vdom w);
    w_built : as_constructed M;
    w_dist : made vname (m_distances M);
    w_dist_numeric : forall n, In n (dkeys (vm_map (m_distances M))) -> exists w, In w (m_vars M) /\ vname w = n /\ vk w = KNumeric
  }.

  Lemma declare_map : forall us : list W, NoDup (map vname us) -> vm_declare vname us = map (fun u => (vname u, u)) us.
  Proof.
    intros us N. unfold vm_declare. change (fold_left (fun d0 w => dset d0 (fst (vname w, w)) (snd (vname w, w))) us [] = map (fun u => (vname u, u)) us).
    rewrite (rebuild W W (fun w => (vname w, w)) us []); [reflexivity|]. cbn [app]. unfold dkeys. rewrite map_map. exact N.
  Qed.
  Lemma same_name : forall (us : list W) a b, NoDup (map vname us) -> In a us -> In b us -> vname a = vname b -> a = b.
  Proof.
    intros us a b N Ia Ib E. induction us as [|u us IH]; [destruct Ia|]. cbn [map] in N. apply NoDup_cons_iff in N. destruct N as (N1 & N2).
    destruct Ia as [<-|Ia], Ib as [<-|Ib]; [reflexivity|exfalso; apply N1; rewrite E; apply in_map; exact Ib|exfalso; apply N1; rewrite <- E; apply in_map; exact Ia|apply IH; assumption].
  Qed.

  Definition reset (w : W) : W := Var (vk w) (vname w) (vdom w) (defaults (Some 0%Q : num) (Some (1 # 100)%Q) (vk w)).

  Lemma defaults_eqb : forall k, settings_eqb (defaults (Some 0%Q : num) (Some (1 # 100)%Q) k) (defaults (Some 0%Q : num) (Some (1 # 100)%Q) k) = true.
  Proof. intros []; reflexivity. Qed.
  Lemma reset_eqb : forall w, var_eqb C w w = true -> var_eqb C (reset w) (reset w) = true.
  Proof.
    intros w E. unfold var_eqb in *. cbn [reset vk vname vdom VarModel.vset]. rewrite !andb_true_iff in E. destruct E as (((A & B) & E) & _). rewrite A, B, E, defaults_eqb. reflexivity.
  Qed.
  Lemma reset_json : forall w, dom_parse C (dom_json C (vdom w)) = Ok (vdom w) ->
    var_from_json (Some 0%Q : num) (Some (1 # 100)%Q) (dom_parse C) (var_to_json (dom_json C) w) = Ok (reset w).
  Proof. intros [k n d s] R. cbn [vdom] in R. destruct k; cbn; rewrite R; reflexivity. Qed.

  Section Read.
    Variables (M : @model F D) (f : W -> W).
    Hypothesis Wr : writable M.
    Notation ws := (m_vars M).
    Hypothesis Keep : forall w, vname (f w) = vname w /\ vk (f w) = vk w /\ vdom (f w) = vdom w.
    Hypothesis KeepEq : forall w, var_eqb C w w = true -> var_eqb C (f w) (f w) = true.

    Lemma names_f : map vname (map f ws) = map vname ws.
    Proof. rewrite map_map. apply map_ext. intro w. apply Keep. Qed.
    Lemma names_f_nodup : NoDup (map vname (map f ws)).
    Proof. rewrite names_f. apply (w_names M Wr). Qed.
    Lemma declare_f : vm_declare vname (map f ws) = map (fun w => (vname w, f w)) ws.
    Proof. rewrite (declare_map _ names_f_nodup), map_map. apply map_ext. intro w. rewrite (proj1 (Keep w)). reflexivity. Qed.
    Lemma dget_f : forall w, In w ws -> dget (vm_declare vname (map f ws)) (vname w) = Some (f w).
    Proof.
      intros w I. rewrite declare_f. apply dget_nodup; [unfold dkeys; rewrite map_map; apply (w_names M Wr)|]. apply (in_map (fun w => (vname w, f w)) ws w I).
    Qed.
    Lemma named_f : forall w, In w ws -> TreeJson.named (map f ws) (vname w) = Ok (f w).
    Proof. intros w I. unfold TreeJson.named. rewrite (dget_f w I). reflexivity. Qed.
    Lemma names_round : forall us, incl us ws -> names_parse (map f ws) (names_json us) = Ok (map f us).
    Proof.
      intros us I. unfold names_parse, names_json. cbn [jiter bind]. rewrite mapM_map. apply mapM_ok. intros u Iu. cbn [as_str bind]. apply named_f. apply I. exact Iu.
    Qed.

    (** What the constructor guarantees. *)
    Lemma built_facts : incl (m_targets M) ws /\ incl (m_features M) ws /\ (m_targets M = [] -> ws = []) /\
      (m_features M = [] -> ws = [] \/ forall v, In v ws -> existsb (var_eqb C v) (m_targets M) = true) /\
      or_zero (m_min_impurity M) = m_min_impurity M /\ or_inf (m_max_depth M) = m_max_depth M /\
      (exists h, agrees vname (m_deps M) h) /\ (forall n w, In (n, w) (vm_vars (m_deps M)) -> n = vname w /\ In w ws) /\
      (forall n us, In (n, us) (vm_map (m_deps M)) -> incl us ws).
    Proof.
      destruct (w_built M Wr) as (dflt & ts & fs & s & i & ml & md & deps & M0 & E & It & If & Id & E1 & E2 & E3 & E4 & E5 & E6 & E7).
      unfold mk_model in E. set (ts' := match ts with [] => ws | _ => ts end) in *.
      set (fs' := match ts, fs with [], [] => ws | _ :: _, [] => filter (fun v => negb (existsb (var_eqb C v) ts')) ws | _, _ => fs end) in *.
      destruct (match deps with None => vm_new vname (map (fun v => (KVar v, ts')) fs') [] | Some its => vm_new vname (map (fun wv => (KVar (fst wv), snd wv)) its) ws end) as [dm|] eqn:Ed; [|discriminate E].
      cbn [bind] in E. injection E as <-. cbn [m_targets m_features m_min_impurity m_max_depth m_deps] in *. rewrite E1, E2, E4, E6, E7. clear E1 E2 E3 E4 E5 E6 E7.
      assert (Its : incl ts' ws) by (unfold ts'; destruct ts; [apply incl_refl|exact It]).
      assert (Ifs : incl fs' ws). { unfold fs'. destruct ts as [|t0 ts0], fs as [|g0 fs0]; try exact If; [apply incl_refl|]. intros v Iv. apply filter_In in Iv. apply Iv. }
      split; [exact Its|]. split; [exact Ifs|]. split; [unfold ts'; destruct ts; [auto|discriminate]|]. split.
      { unfold fs'. destruct ts as [|t ts]; destruct fs as [|g fs]; try discriminate; [intros ->; left; reflexivity|]. intro En. right. intros v Iv. destruct (existsb (var_eqb C v) ts') eqn:Ex; [reflexivity|].
        exfalso. assert (In v []) as []. rewrite <- En. apply filter_In. split; [exact Iv|rewrite Ex; reflexivity]. }
      split; [destruct i; reflexivity|]. split.
      { unfold or_inf. destruct (scalar_num md) as [x|] eqn:Es; [|reflexivity]. destruct (num_eqb x (Some 0%Q)) eqn:Ez; [reflexivity|]. rewrite Es, Ez. reflexivity. }
      (* a fill from variables keeps the invariants *)
      assert (Fill : forall (data : list (W * list W)) m m', (exists h, agrees vname m h) -> (forall n w, In (n, w) (vm_vars m) -> n = vname w /\ In w ws) -> (forall n us, In (n, us) (vm_map m) -> incl us ws) ->
        (forall w us, In (w, us) data -> In w ws /\ incl us ws) -> vm_fill vname m (map (fun wv : W * list W => (KVar (fst wv), snd wv)) data) = Ok m' ->
        (exists h, agrees vname m' h) /\ (forall n w, In (n, w) (vm_vars m') -> n = vname w /\ In w ws) /\ (forall n us, In (n, us) (vm_map m') -> incl us ws)).
      { intro data. induction data as [|[w us] data IH]; intros m m' A B G H E; [injection E as <-; auto|]. cbn [map vm_fill vm_set bind fst snd] in E.
        destruct (H w us (or_introl eq_refl)) as (Iw & Iu). apply (IH _ _) in E; [exact E| | | |intros; apply H; right; assumption].
        - destruct A as (h & A). eexists. apply agrees_wrote. exact A.
        - intros n x. unfold vm_set_var. cbn [vm_vars]. destruct (dget (vm_vars m) (vname w)) eqn:Eg; [apply B|]. rewrite dset_fresh by (apply dget_in; exact Eg). intro I. apply in_app_or in I. destruct I as [I|[I|[]]]; [apply B; exact I|]. injection I as <- <-. split; [reflexivity|exact Iw].
        - intros n x. unfold vm_set_var. cbn [vm_map]. intro I. destruct A as (h & (A & _ & _)).
          assert (Ig : dget (dset (vm_map m) (vname w) us) n = Some x) by (apply dget_nodup; [apply dset_nodup; apply (am_nodup _ _ A)|exact I]).
          rewrite dget_dset in Ig. destruct (String.eqb n (vname w)); [injection Ig as <-; exact Iu|]. apply dget_some_in in Ig. apply (G n x Ig). }
      destruct deps as [its|].
      - unfold vm_new in Ed. apply (Fill _ _ _) in Ed; [exact Ed| | | |].
        + exists (declared vname ws). apply new_agrees.
        + cbn [vm_vars]. intros n w I. rewrite (declare_map _ (w_names M Wr)) in I. apply in_map_iff in I. destruct I as (u & E & Iu). injection E as <- <-. auto.
        + intros n us [].
        + intros w us I. apply (Id its eq_refl w us I).
      - unfold vm_new in Ed. change (map (fun v => (KVar v, ts')) fs') with (map (fun v => (KVar (fst (v, ts')), snd (v, ts'))) fs') in Ed. rewrite <- (map_map (fun v => (v, ts')) (fun wv : W * list W => (KVar (fst wv), snd wv))) in Ed. apply (Fill _ _ _) in Ed; [exact Ed| | | |].
        + eexists. apply (new_agrees (@vname D num) []).
        + intros n w [].
        + intros n us [].
        + intros w us I. apply in_map_iff in I. destruct I as (v & E & Iv). injection E as <- <-. split; [apply Ifs; exact Iv|exact Its].
    Qed.

    Definition deps_f : vmap W (list W) := VM (vm_declare vname (map f ws)) (map (fun kv => (fst kv, map f (snd kv))) (vm_map (m_deps M))).

    Lemma deps_keys : forall n us, In (n, us) (vm_map (m_deps M)) -> exists w, In w ws /\ vname w = n.
    Proof.
      intros n us I. destruct built_facts as (_ & _ & _ & _ & _ & _ & (h & A) & V & _). destruct (VarProofs.named vname (m_deps M) h n us A I) as (w & E & <-). apply dget_some_in in E. exists w. split; [apply (V _ _ E)|reflexivity].
    Qed.
    Lemma deps_round : exists its, deps_parse (map f ws) (JObj (map (fun kv => (fst kv, names_json (snd kv))) (vm_map (m_deps M)))) = Ok its /\
      vm_new vname (map (fun wv : W * list W => (KVar (fst wv), snd wv)) its) (map f ws) = Ok deps_f.
    Proof.
      destruct built_facts as (_ & _ & _ & _ & _ & _ & (h & (A & _ & _)) & _ & V). pose proof (am_nodup _ _ A) as Nd.
      assert (P : exists its, deps_parse (map f ws) (JObj (map (fun kv => (fst kv, names_json (snd kv))) (vm_map (m_deps M)))) = Ok its /\
        Forall2 (fun wv kv => exists w, In w ws /\ vname w = fst kv /\ fst wv = f w /\ snd wv = map f (snd kv)) its (vm_map (m_deps M))).
      { unfold deps_parse. rewrite mapM_map. assert (H : forall n us, In (n, us) (vm_map (m_deps M)) -> (exists w, In w ws /\ vname w = n) /\ incl us ws) by (intros n us I; split; [apply (deps_keys n us I)|apply (V n us I)]).
        revert H. generalize (vm_map (m_deps M)). clear - Wr Keep. intro l. induction l as [|[n us] l IH]; intro H; [exists []; split; [reflexivity|constructor]|].
        destruct IH as (its & E & G); [intros; apply H; right; assumption|]. destruct (H n us (or_introl eq_refl)) as ((w & Iw & <-) & Iu). exists ((f w, map f us) :: its). rewrite mapM_cons. cbn [fst snd] in E |- *. rewrite (named_f w Iw). cbn [bind]. rewrite (names_round us Iu). cbn [bind]. rewrite E. split; [reflexivity|].
        constructor; [exists w; auto|exact G]. }
      destruct P as (its & E & G). exists its. split; [exact E|]. unfold vm_new. rewrite fill_known.
      - unfold deps_f. f_equal. f_equal. unfold fill_map. pose proof (rebuild (list W) (W * list W) (fun wv => (vname (fst wv), snd wv)) its []) as RB. cbn [fst snd app] in RB.
        assert (Mp : map (fun wv => (vname (fst wv), snd wv)) its = map (fun kv => (fst kv, map f (snd kv))) (vm_map (m_deps M))).
        { clear - G Keep. induction G as [|[w us] [n x] its l (u & Iu & En & E1 & E2) G IH]; [reflexivity|]. cbn [map fst snd] in *. subst. rewrite IH, (proj1 (Keep u)). reflexivity. }
        rewrite RB; rewrite Mp; [reflexivity|]. unfold dkeys in *. rewrite map_map. exact Nd.
      - intros wv I. assert (K : exists w, In w ws /\ fst wv = f w). { clear - G I. induction G as [|a b its l (u & Iu & En & E1 & E2) G IH]; [destruct I|]. destruct I as [<-|I]; [exists u; auto|apply IH; exact I]. }
        destruct K as (w & Iw & ->). rewrite (proj1 (Keep w)), (dget_f w Iw). discriminate.
    Qed.

    Lemma distances_round : exists m', vm_from_json vname as_flt (filter numeric (map f ws)) (map (fun kv => (fst kv, JFlt (snd kv))) (vm_map (m_distances M))) = Ok m' /\
      vm_map m' = vm_map (m_distances M).
    Proof.
      destruct (made_agrees vname _ (w_dist M Wr)) as (h & (A & _ & _)). unfold vm_from_json.
      destruct (load_spec vname num (fun x : num => JFlt x) as_flt (vm_declare vname (filter numeric (map f ws))) (fun n w E => proj2 (declare_in vname _ n w E)) (vm_map (m_distances M)) (VM [] [])) as (m' & Em & Mm & _).
      - reflexivity.
      - intros n I. destruct (w_dist_numeric M Wr n I) as (w & Iw & <- & Kw). assert (Nf : NoDup (map vname (filter numeric (map f ws)))).
        { pose proof names_f_nodup as N. revert N. generalize (map f ws). clear. intro l. induction l as [|x l IH]; intro N; [constructor|]. cbn [map] in N. apply NoDup_cons_iff in N. destruct N as (N1 & N2). cbn [filter]. destruct (numeric x); [|exact (IH N2)]. cbn [map]. constructor; [|exact (IH N2)].
          intro I. apply N1. apply in_map_iff in I. destruct I as (y & <- & Iy). apply filter_In in Iy. apply in_map. apply Iy. }
        rewrite (declare_map _ Nf). rewrite (dget_nodup _ (vname w) (f w)); [discriminate|unfold dkeys; rewrite map_map; exact Nf|].
        apply in_map_iff. exists (f w). rewrite (proj1 (Keep w)). split; [reflexivity|]. apply filter_In. split; [apply in_map; exact Iw|]. unfold numeric. rewrite (proj1 (proj2 (Keep w))), Kw. reflexivity.
      - apply (am_nodup _ _ A).
      - intros n _. split; intros [].
      - exists m'. split; [exact Em|exact Mm].
    Qed.

    (** The tree that is read. *)
    Definition read_tree (dflt : TreeModel.vset F) : jpt F :=
      JPT (length ws) (fulls C dflt (map f ws)) (innernodes (m_tree M)) (leaves (m_tree M)) (root (m_tree M)) (priors (m_tree M)).

    Lemma nodes_round : forall J0, innernodes J0 = [] -> leaves J0 = [] -> exists ns ls J1,
      mapM (inner_to_json C ws (m_tree M)) (innernodes (m_tree M)) = Ok ns /\ mapM (leaf_to_json C ws (m_tree M)) (leaves (m_tree M)) = Ok ls /\
      load (inner_from_json C (map f ws)) J0 ns = Ok J1 /\ load (leaf_from_json C (map f ws)) J1 ls = Ok (with_nodes J0 (innernodes (m_tree M)) (leaves (m_tree M))).
    Proof.
      intros J0 Z1 Z2. destruct (w_tree M Wr) as [T|(Ei & El & _)].
      - destruct (inner_load C (m_tree M) T ws f (w_names M Wr) Keep (innernodes (m_tree M)) [] J0 eq_refl (w_order M Wr) (w_inner M Wr)) as (ns & En & Ln); [rewrite Z1; reflexivity|].
        destruct (leaf_load C (m_tree M) T ws f (w_names M Wr) Keep (leaves (m_tree M)) [] (with_nodes J0 (map (restrict (map i_idx (innernodes (m_tree M)))) (innernodes (m_tree M))) (leaves J0)) eq_refl (w_leaves M Wr)) as (ls & Es & Ls); [cbn [map innernodes with_nodes]; rewrite app_nil_r; reflexivity|exact Z2|].
        exists ns, ls. eexists. split; [exact En|]. split; [exact Es|]. split; [exact Ln|]. rewrite Ls. rewrite (restrict_all (m_tree M) T). reflexivity.
      - exists [], [], J0. rewrite Ei, El. split; [reflexivity|]. split; [reflexivity|]. split; [reflexivity|]. cbn [load]. rewrite <- Z1, <- Z2. destruct J0; reflexivity.
    Qed.

    Lemma mk_round : forall dflt its, vm_new vname (map (fun wv : W * list W => (KVar (fst wv), snd wv)) its) (map f ws) = Ok deps_f ->
      mk_model C dflt (map f ws) (map f (m_targets M)) (map f (m_features M)) (m_min_samples M) (m_min_impurity M) (m_max_leaves M) (m_max_depth M) (Some its)
      = Ok (Model (map f ws) (map f (m_targets M)) (map f (m_features M)) (m_min_samples M) (m_min_impurity M) (m_max_leaves M) (m_max_depth M)
                  (VM (vm_declare vname (map f ws)) []) deps_f (JPT (length ws) (fulls C dflt (map f ws)) [] [] None [])).
    Proof.
      intros dflt its Ev. destruct built_facts as (It & If & Zt & Zf & Oz & Oi & _). unfold mk_model. rewrite Ev. cbn [bind]. rewrite Oz, Oi, map_length. f_equal. f_equal.
      - destruct (m_targets M) as [|t ts]; [rewrite (Zt eq_refl); reflexivity|reflexivity].
      - destruct (m_targets M) as [|t ts] eqn:Et; [rewrite (Zt eq_refl) in *; destruct (m_features M) as [|g gs]; [reflexivity|destruct (If g (or_introl eq_refl))]|].
        destruct (m_features M) as [|g gs]; [|reflexivity]. cbn [map]. destruct (Zf eq_refl) as [-> |Al]; [reflexivity|].
        destruct (filter (fun v => negb (existsb (var_eqb C v) (f t :: map f ts))) (map f ws)) as [|x l] eqn:Ef; [reflexivity|]. exfalso.
        assert (Ix : In x (filter (fun v => negb (existsb (var_eqb C v) (f t :: map f ts))) (map f ws))) by (rewrite Ef; left; reflexivity). apply filter_In in Ix. destruct Ix as (Ix & Nx).
        apply in_map_iff in Ix. destruct Ix as (v & <- & Iv). specialize (Al v Iv). apply existsb_exists in Al. destruct Al as (u & Iu & Eu).
        assert (v = u). { apply (same_name ws v u (w_names M Wr) Iv (It u Iu)). unfold var_eqb in Eu. rewrite !andb_true_iff in Eu. destruct Eu as (((_ & B) & _) & _). apply String.eqb_eq in B. exact B. }
        subst u. assert (Hx : existsb (var_eqb C (f v)) (f t :: map f ts) = true); [|rewrite Hx in Nx; discriminate Nx].
        apply existsb_exists. exists (f v). split; [change (f t :: map f ts) with (map f (t :: ts)); apply in_map; exact Iu|apply KeepEq; exact Eu].
    Qed.

    Lemma whole_round : forall dflt given, (given = Some (map f ws) \/ (given = None /\ f = reset)) ->
      exists d dist, to_json C M = Ok d /\ vm_map dist = vm_map (m_distances M) /\
        from_json C dflt given d = Ok (Model (map f ws) (map f (m_targets M)) (map f (m_features M)) (m_min_samples M) (m_min_impurity M) (m_max_leaves M) (m_max_depth M) dist deps_f (read_tree dflt)).
    Proof.
      intros dflt given Hg. destruct built_facts as (It & If & _ & _ & _ & _ & (hd & Ad) & _). destruct (made_agrees vname _ (w_dist M Wr)) as (h & A).
      destruct deps_round as (its & Ei & Ev). destruct distances_round as (dist & Edd & Edm).
      destruct (nodes_round (JPT (length ws) (fulls C dflt (map f ws)) [] [] None []) eq_refl eq_refl) as (ns & ls & J1 & En & El & Ln & Ll).
      assert (Gv : forall d, jget d "variables" = Ok (JList (map (var_to_json (dom_json C)) ws)) ->
        (match given with Some us => Ok us | None => do js <- bind (jget d "variables") jiter; mapM (var_from_json (Some 0%Q : num) (Some (1 # 100)%Q) (dom_parse C)) js end) = Ok (map f ws)).
      { intros d Ed. destruct Hg as [-> |(-> & Hf)]; [reflexivity|]. rewrite Ed. cbn [bind jiter]. rewrite mapM_map. rewrite Hf. apply mapM_ok. intros w Iw. apply reset_json. apply (w_doms M Wr w Iw). }
      assert (Nv : map snd (vm_declare vname (map f ws)) = map f ws) by (rewrite declare_f, map_map; reflexivity).
      eexists. exists dist. split.
      { unfold to_json. rewrite (to_json_ok vname num (fun x : num => JFlt x) (m_distances M) h A). cbn [bind]. rewrite (to_json_ok vname num names_json (m_deps M) hd Ad). cbn [bind]. rewrite El. cbn [bind]. rewrite En. cbn [bind]. reflexivity. }
      split; [exact Edm|]. unfold from_json. rewrite Gv by reflexivity. cbn [bind]. rewrite Nv.
      cbn [jget obj_get String.eqb Ascii.eqb Bool.eqb bind]. rewrite (names_round _ It). cbn [bind]. rewrite (names_round _ If). cbn [bind]. rewrite !scalar_round. cbn [bind]. rewrite Ei. cbn [bind].
      rewrite (mk_round dflt its Ev). cbn [bind obj_of m_tree]. rewrite Edd. cbn [bind jiter]. rewrite Ln. cbn [bind]. rewrite Ll. cbn [bind].
      rewrite (dists_round C ws f (w_names M Wr) Keep _ (proj1 (w_priors M Wr)) (proj2 (w_priors M Wr))). cbn [bind]. cbn [n_vars full innernodes leaves with_nodes].
      assert (Rt : (match jopt (root (m_tree M)) with JNull => Ok None | _ => do i <- as_nat (jopt (root (m_tree M))); match get_node (with_nodes (JPT (length ws) (fulls C dflt (map f ws)) [] [] None []) (innernodes (m_tree M)) (leaves (m_tree M))) i with Some _ => Ok (Some i) | None => Err KeyError end end) = Ok (root (m_tree M))).
      { destruct (w_tree M Wr) as [T|(_ & _ & ->)]; [|reflexivity]. destruct (root_ok _ T) as (r & m & -> & G & _). cbn [jopt]. unfold jnat at 1. rewrite as_nat_jnat. cbn [bind]. change (get_node (with_nodes (JPT (length ws) (fulls C dflt (map f ws)) [] [] None []) (innernodes (m_tree M)) (leaves (m_tree M))) r) with (get_node (m_tree M) r). rewrite G. reflexivity. }
      rewrite Rt. reflexivity.
    Qed.
  End Read.
End Whole.
