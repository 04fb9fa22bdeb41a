(** Properties C84 (piecewise functions survive serialisation), C77 (numeric types and
    distributions, pickle) and C46 (trees over numeric, symbolic and integer variables). *)
Require Import String QArith ZArith Bool List Arith Lia.
Require Import Verif.Base Verif.NumBase Verif.FloatLine Verif.Json Verif.VarModel Verif.VarSpec Verif.VarProofs Verif.VarProps Verif.IntervalModel Verif.IntervalSpec Verif.IntervalProofs Verif.IntervalJson
  Verif.FloatVal Verif.FunctionModel Verif.FunctionSpec Verif.NumericModel Verif.NumericSpec Verif.NumericFit Verif.NumericProb
  Verif.ImpurityModel Verif.LearnModel Verif.LearnSpec Verif.LearnTree Verif.LearnProofs Verif.LearnInv Verif.LearnDiscrete
  Verif.TreeJson Verif.TreeJsonProofs Verif.TreeJsonWhole Verif.TreeJsonDiscrete Verif.TreeJsonProps
  Verif.DiscreteModel Verif.TreeModel Verif.TreeSpec Verif.TreeApply Verif.TreePosterior Verif.TreeCond Verif.TreeCond2 Verif.TreePartition Verif.TreeDiscrete Verif.NumericTree Verif.MixedTree Verif.MixedProps Verif.ImpurityProps Verif.LearnProps Verif.LearnMixed Verif.LearnMixedProps Verif.MixedJson.
Import ListNotations.
Open Scope string_scope.
Open Scope list_scope.
Open Scope nat_scope.

(** ** C84: piecewise functions *)

(** The bounds of the pieces are in order, so that ContinuousSet accepts them. *)
Definition ordered (p : plf) : Prop := Forall (fun s : cs * fn => (lower (fst s) <= upper (fst s))%Z) p.

Lemma bound_round : forall x, bound_parse (bound_json x) = Ok x.
Proof. reflexivity. Qed.
Lemma interval_reads : forall c, interval_parse (interval_json c) = if (upper c <? lower c)%Z then Err ValueError else Ok c.
Proof.
  intros [lo hi l r]. unfold interval_parse, interval_json. cbn [jget obj_get String.eqb Ascii.eqb Bool.eqb bind as_int lower upper left right]. rewrite !bound_round. cbn [bind].
  destruct l, r; cbn; unfold mk_cs; destruct (hi <? lo)%Z; reflexivity.
Qed.
Lemma interval_round : forall c, (lower c <= upper c)%Z -> interval_parse (interval_json c) = Ok c.
Proof. intros c L. rewrite interval_reads. destruct (Z.ltb_spec (upper c) (lower c)); [lia|reflexivity]. Qed.
Lemma fn_reads : forall f, fn_parse (fn_json f) = match f with FUndef => Err TypeError | FQuad _ _ _ => Err KeyError | _ => Ok f end.
Proof. intros []; reflexivity. Qed.
Lemma mapM_all : forall A B (f : A -> res B) l l', mapM f l = Ok l' -> forall x, In x l -> exists y, f x = Ok y.
Proof.
  intros A B f l. induction l as [|a l IH]; intros l' E x I; [destruct I|]. rewrite mapM_cons in E. destruct (f a) as [y|] eqn:Ea; [|discriminate E]. cbn [bind] in E. destruct (mapM f l) as [ys|] eqn:El; [|discriminate E].
  destruct I as [<-|I]; [exists y; exact Ea|exact (IH ys eq_refl x I)].
Qed.

(** Writing and reading a piecewise function gives the same function, piece by piece, if all
    its pieces are constant or linear and its intervals are in order, and raises an error
    otherwise: the function is never changed. *)
Theorem C84_json_partial : forall p p', plf_parse (plf_json p) = Ok p' <-> p' = p /\ affines p /\ ordered p.
Proof.
  intros p p'. unfold plf_parse, plf_json. cbn [jget obj_get String.eqb Ascii.eqb Bool.eqb bind jiter]. rewrite !mapM_map. split.
  - intro E. destruct (mapM (fun x : cs * fn => interval_parse (interval_json (fst x))) p) as [is|] eqn:Ei; [|discriminate E]. cbn [bind] in E. destruct (mapM (fun x : cs * fn => fn_parse (fn_json (snd x))) p) as [fs|] eqn:Ef; [|discriminate E]. cbn [bind] in E.
    assert (O : ordered p). { apply Forall_forall. intros s I. destruct (mapM_all _ _ _ _ _ Ei s I) as (y & Ey). rewrite interval_reads in Ey. destruct (Z.ltb_spec (upper (fst s)) (lower (fst s))); [discriminate Ey|assumption]. }
    assert (A : affines p). { apply Forall_forall. intros s I. destruct (mapM_all _ _ _ _ _ Ef s I) as (y & Ey). rewrite fn_reads in Ey. destruct (snd s); try discriminate Ey; exact Logic.I. }
    split; [|split; assumption]. rewrite (mapM_ok _ _ _ fst) in Ei by (intros s I; apply interval_round; exact (proj1 (Forall_forall _ _) O s I)). rewrite (mapM_ok _ _ _ snd) in Ef by (intros s I; rewrite fn_reads; pose proof (proj1 (Forall_forall _ _) A s I : affine (snd s)) as As; destruct (snd s); try contradiction; reflexivity).
    injection Ei as <-. injection Ef as <-. rewrite !map_length, Nat.eqb_refl in E. apply (f_equal (fun r => match r with Ok x => x | Err _ => [] end)) in E. cbn beta iota in E. rewrite <- E. clear. induction p as [|[c f] p IH]; [reflexivity|]. cbn [map combine fst snd]. rewrite IH. reflexivity.
  - intros (-> & A & O). rewrite (mapM_ok _ _ _ fst) by (intros s I; apply interval_round; exact (proj1 (Forall_forall _ _) O s I)). cbn [bind]. rewrite (mapM_ok _ _ _ snd) by (intros s I; rewrite fn_reads; pose proof (proj1 (Forall_forall _ _) A s I : affine (snd s)) as As; destruct (snd s); try contradiction; reflexivity). cbn [bind].
    rewrite !map_length, Nat.eqb_refl. replace (combine (map fst p) (map snd p)) with p; [reflexivity|]. clear. induction p as [|[c f] p IH]; [reflexivity|]. cbn [map combine fst snd]. rewrite <- IH. reflexivity.
Qed.
Print Assumptions C84_json_partial.
(** What is read compares equal to what was written. *)
Lemma cs_eq_same : forall c, cs_eq c c = true.
Proof. intro c. unfold cs_eq. rewrite !Z.eqb_refl. reflexivity. Qed.
Lemma fn_eq_same : forall f, fn_eq f f = Ok true.
Proof. assert (Q : forall q, Qeq_bool q q = true) by (intro; apply Qeq_bool_iff; reflexivity). intros []; cbn [fn_eq]; rewrite ?Q; reflexivity. Qed.
Lemma plf_eq_same : forall p, plf_eq p p = Ok true.
Proof. intro p. induction p as [|[c f] p IH]; [reflexivity|]. cbn [plf_eq]. rewrite cs_eq_same, fn_eq_same. exact IH. Qed.
Theorem C84_equal : forall p p', plf_parse (plf_json p) = Ok p' -> plf_eq p' p = Ok true.
Proof. intros p p' E. apply C84_json_partial in E. destruct E as (-> & _). apply plf_eq_same. Qed.
Print Assumptions C84_equal.

(** A function with a quadratic piece, such as the product of two linear functions, is
    written, but what was written cannot be read. *)
Theorem C84_quadratic_refuted : exists p q r, affines p /\ affines q /\ plf_mul p q = Ok r /\ plf_parse (plf_json r) = Err KeyError.
Proof.
  exists [(CS 0 1 INC EXC, FLin 1 0)], [(CS 0 1 INC EXC, FLin 1 0)]. eexists. split; [repeat constructor|]. split; [repeat constructor|]. split; [vm_compute; reflexivity|]. vm_compute. reflexivity.
Qed.
Print Assumptions C84_quadratic_refuted.
Example C84_example : let p := [(CS (- ORD_INF) 0 EXC EXC, FConst 0%Q); (CS 0 10 INC EXC, FLin (1 # 10) 0%Q); (CS 10 ORD_INF INC EXC, FConst 1%Q)] in
  plf_parse (plf_json p) = Ok p /\ affines p /\ ordered p.
Proof. cbn zeta. split; [reflexivity|]. split; repeat constructor; cbn; try exact Logic.I; vm_compute; discriminate. Qed.

(** ** C77: numeric types and distributions *)

(** Distributions survive from_json of their type. *)
Theorem C77_numeric_json_partial : forall t p p', ndist_from_json t (ndist_to_json p) = Ok p' <-> p' = p /\ affines p /\ ordered p.
Proof. intros t p p'. exact (C84_json_partial p p'). Qed.
Print Assumptions C77_numeric_json_partial.
(** All distributions the library makes have such a cdf. *)
Lemma chain_ordered : forall p a b, chain a p b -> ordered p.
Proof. induction p as [|[c f] p IH]; intros a b H; [constructor|]. cbn [chain] in H. destruct H as (E & L & H). constructor; [cbn [fst]; rewrite E; cbn [lower upper]; lia|exact (IH _ _ H)]. Qed.
Lemma numeric_lossless : forall G p, ok_numeric G p -> affines p /\ ordered p.
Proof.
  intros G p [(L & _)|(x & -> & B)]; [split; [apply (ln_affine _ L)|exact (chain_ordered _ _ _ (ln_chain _ L))]|]. pose proof ord_facts as O.
  unfold NumericModel.dirac. split; repeat constructor; cbn [fst lower upper]; lia.
Qed.
Theorem C77_numeric_made : forall G p t, ok_numeric G p -> ndist_from_json t (ndist_to_json p) = Ok p.
Proof. intros G p t H. apply C77_numeric_json_partial. split; [reflexivity|exact (numeric_lossless G p H)]. Qed.
Print Assumptions C77_numeric_made.
(** Pickling or deep copying a numeric distribution fails, whatever it is. *)
Theorem C77_numeric_pickle_refuted : forall p, msetstate (ndist_to_json p) = Err KeyError.
Proof. reflexivity. Qed.
Print Assumptions C77_numeric_pickle_refuted.

(** A numeric type survives exactly if it is Numeric itself or has a scaler. *)
Definition keeps (t : ntype) : Prop := match t with NumType c => c = "Numeric" | ScaledType _ _ _ => True end.
Theorem C77_numeric_type_partial : forall t, exists t', mtype_from_json (mtype_to_json (inl t)) = Ok (inl t') /\ (t' = t <-> keeps t) /\ (ntype_equiv t' t = true <-> keeps t).
Proof.
  intros [c|c m s].
  - exists (NumType "Numeric"). split; [reflexivity|]. cbn [keeps ntype_equiv]. split; [split; [intro E; injection E as ->; reflexivity|intros ->; reflexivity]|]. rewrite String.eqb_eq. split; intro E; symmetry; exact E.
  - exists (ScaledType c m s). split; [reflexivity|]. cbn [keeps ntype_equiv]. split; [tauto|]. rewrite String.eqb_refl. cbn [andb]. rewrite andb_true_iff, !Qeq_bool_iff. split; [tauto|]. intros _. split; reflexivity.
Qed.
Print Assumptions C77_numeric_type_partial.
Theorem C77_subclass_refuted : exists t t', mtype_from_json (mtype_to_json (inl t)) = Ok (inl t') /\ ntype_equiv t' t = false.
Proof. exists (NumType "Temperature"), (NumType "Numeric"). split; reflexivity. Qed.
Print Assumptions C77_subclass_refuted.

(** ** C46: trees with numeric variables *)

(** The type of a variable is one the library constructs and which survives, of the kind of
    the variable. *)
Definition made_mtype (k : vkind) (t : mtype) : Prop :=
  match k, t with
  | KNumeric, inl t => keeps t
  | KSymbolic, inr t | KInteger, inr t => made_type t /\ TreeJsonProps.fits k t
  | _, _ => False
  end.
Definition kind_of_type (t : mtype) : MixedProps.kind := match t with inl _ => None | inr t => Some (dom_of t) end.
Notation var_kinds ws := (map (fun w : VarModel.var mtype TreeJson.num => kind_of_type (vdom w)) ws).

Lemma kind_at : forall ws v (w : VarModel.var mtype TreeJson.num), nth_error ws v = Some w -> nth v (var_kinds ws) None = kind_of_type (vdom w).
Proof. intros ws v w E. exact (nth_error_nth _ _ None (map_nth_error (fun w => kind_of_type (vdom w)) _ _ E)). Qed.
Lemma mtype_round : forall k t, made_mtype k t -> mtype_from_json (mtype_to_json t) = Ok t.
Proof.
  intros k [t|t] H.
  - destruct k; cbn [made_mtype] in H; try contradiction. destruct (C77_numeric_type_partial t) as (t' & E & K & _). rewrite E, (proj2 K H). reflexivity.
  - assert (M : made_type t) by (destruct k; cbn [made_mtype] in H; try contradiction; apply H). pose proof (type_round t M) as R. unfold mtype_from_json, mtype_to_json. replace (bind (jget (type_to_json t) "type") as_str) with (Ok (match t with SymType _ _ => "symbolic" | IntType _ _ _ => "integer" end)) by (destruct t; reflexivity).
    cbn [bind]. rewrite R. destruct t; reflexivity.
Qed.
Lemma mset_round : forall k t G s, made_mtype k t -> suits G (kind_of_type t) s -> mset_parse k (mset_json s) = Ok s.
Proof.
  intros k [t|t] G s H S.
  - destruct k; cbn [made_mtype] in H; try contradiction. destruct s as [[c|l]|s]; cbn [kind_of_type suits] in S; try contradiction. cbn [mset_parse mset_json]. rewrite interval_round; [reflexivity|]. destruct S as ((W & _) & _). exact W.
  - destruct s as [[c|l]|s]; cbn [kind_of_type suits] in S; try contradiction. destruct k; cbn [made_mtype] in H; try contradiction; cbn [mset_parse mset_json]; rewrite nats_round by discriminate; reflexivity.
Qed.
Definition lossless (t : mtype) (d : dist (mixed numeric discrete)) : Prop :=
  match t, d with
  | inl _, inl p => affines p /\ ordered p
  | inr t, inr d => d_dom d = dom_of t /\ length (d_params d) = n_values (dom_of t)
  | _, _ => False
  end.
Lemma mdist_round : forall t d, lossless t d -> mdist_parse t (dist_json mcodec d) = Ok d.
Proof.
  intros [t|t] [p|d] H; cbn [lossless] in H; try contradiction; cbn [mdist_parse dist_json mcodec].
  - rewrite (proj2 (C77_numeric_json_partial t p p) (conj eq_refl H)). reflexivity.
  - rewrite (inst_round t d (proj1 H) (proj2 H)). reflexivity.
Qed.
Lemma fits_lossless : forall G t d, MixedProps.fits G (kind_of_type t) d -> lossless t d.
Proof.
  intros G [t|t] [p|d] H; cbn [kind_of_type MixedProps.fits] in H; try contradiction; cbn [lossless].
  - exact (numeric_lossless G p H).
  - split; apply H.
Qed.

(** Trees over variables of all kinds, well-formed in the sense of MixedProps.v, survive. *)
Theorem C46_mixed : forall (M : @model (mixed numeric discrete) mtype) G,
  NoDup (map vname (m_vars M)) -> (forall w, In w (m_vars M) -> made_mtype (vk w) (vdom w)) ->
  wf_mixed (var_kinds (m_vars M)) G (m_tree M) -> parents_first (innernodes (m_tree M)) ->
  (forall n, In n (innernodes (m_tree M)) -> i_var n < length (m_vars M) /\
     (forall s, In s (i_splits n) -> suits (G (i_var n)) (nth (i_var n) (var_kinds (m_vars M)) None) s) /\
     forall v s, In (v, s) (i_path n) -> v < length (m_vars M)) ->
  Forall2 (fun w d => lossless (vdom w) d) (m_vars M) (priors (m_tree M)) \/ priors (m_tree M) = [] ->
  as_constructed mcodec M -> made vname (m_distances M) ->
  (forall n, In n (dkeys (vm_map (m_distances M))) -> exists w, In w (m_vars M) /\ vname w = n /\ vk w = KNumeric) ->
  writable mcodec M.
Proof.
  intros M G N Ty Wf Po In_ Pr Bu Di Dn. constructor; try assumption.
  - left. exact (mx_tree _ _ _ Wf).
  - intros n I. destruct (In_ n I) as (L & Su & Lp). split; [|exact Lp]. destruct (nth_error (m_vars M) (i_var n)) as [w|] eqn:E; [|apply nth_error_None in E; lia]. exists w. split; [reflexivity|]. intros s Is. specialize (Su s Is).
    rewrite (kind_at _ _ _ E) in Su. exact (mset_round (vk w) (vdom w) (G (i_var n)) s (Ty w (nth_error_In _ _ E)) Su).
  - intros l I. split; [rewrite (mx_len _ _ _ Wf l I), map_length; reflexivity|]. intros v d w Ed Ew. apply mdist_round. pose proof (mx_dists _ _ _ Wf l v d I Ed) as F. rewrite (kind_at _ _ _ Ew) in F. exact (fits_lossless _ _ _ F).
  - destruct Pr as [Pr|E].
    + split; [left; symmetry; clear - Pr; induction Pr; cbn [length]; congruence|]. intros v d w Ed Ew. apply mdist_round. clear - Pr Ed Ew. revert v Ed Ew. induction Pr as [|w0 d0 ws ds H _ IH]; intros v Ed Ew; [destruct v; discriminate Ed|]. destruct v as [|v]; cbn [nth_error] in Ed, Ew; [injection Ed as <-; injection Ew as <-; exact H|exact (IH v Ed Ew)].
    + rewrite E. split; [right; reflexivity|]. intros [|v] d w X; discriminate X.
  - intros w I. exact (mtype_round (vk w) (vdom w) (Ty w I)).
Qed.
Print Assumptions C46_mixed.

(** Every tree learnt from a table with numeric, symbolic and integer columns survives. *)
Theorem C46_mixed_learnt : forall epsilon val inf neg1 D imp kinds G mid min_improvement max_depth N (M : @model (mixed numeric discrete) mtype),
  trainable val neg1 D imp kinds G mid N ->
  learn_mixed epsilon val inf neg1 D imp kinds mid min_improvement max_depth N = Ok (m_tree M) ->
  kinds = var_kinds (m_vars M) -> NoDup (map vname (m_vars M)) -> (forall w, In w (m_vars M) -> made_mtype (vk w) (vdom w)) ->
  as_constructed mcodec M -> made vname (m_distances M) ->
  (forall n, In n (dkeys (vm_map (m_distances M))) -> exists w, In w (m_vars M) /\ vname w = n /\ vk w = KNumeric) ->
  writable mcodec M /\
  forall dflt, exists d M' M2, to_json mcodec M = Ok d /\ from_json mcodec dflt None d = Ok M' /\ copy mcodec dflt M = Ok M2 /\
    same_tree mcodec (m_vars M) (m_tree M) (m_tree M') /\ same_tree mcodec (m_vars M) (m_tree M) (m_tree M2) /\ m_vars M' = map reset (m_vars M) /\ m_vars M2 = m_vars M /\
    (* the whole domains of the variables as well *)
    forall v, v < length kinds -> full (m_tree M') v = full (m_tree M) v /\ full (m_tree M2) v = full (m_tree M) v.
Proof.
  intros epsilon val inf neg1 D imp kinds G mid mi md N M Td E K Nd Ty Bu Di Dn.
  assert (writable mcodec M /\ wf_mixed kinds G (m_tree M)) as [Wr Wf].
  { assert (Pos : 0 < N) by (destruct N; [discriminate E|lia]).
    destruct (learn_ok val inf neg1 D imp (map learn_kind kinds) mixed_mk mid (mixed_fit epsilon val D kinds) mi md (mixed_cell val) N (trainable_learnable epsilon val neg1 D imp kinds G mid N Td) (fun _ _ _ _ _ => True) (fun _ => True)) with (fl := MixedProps.whole kinds) as (J & ix & bl & ps & E' & Ep & I); try (intros; exact Logic.I); [exact Pos|].
    rewrite E in E'. injection E' as <-. pose proof (learnt_fitted _ _ _ _ _ _ _ _ _ _ _ Td _ _ _ _ _ _ I) as Ft. pose proof (fitted_mixed _ _ _ _ _ Ft) as Wf.
    assert (Lk : length kinds = length (m_vars M)) by (rewrite K, map_length; reflexivity).
    assert (Pth : forall len i m, get_node (m_tree M) i = Some m -> length (n_path m) = len -> forall v s, In (v, s) (n_path m) -> v < length kinds).
    { pose proof (mx_tree _ _ _ Wf) as T. induction len as [|len IH]; intros i m Gn Ln v s Iv; [destruct (n_path m); [contradiction|discriminate]|].
      destruct (node_path _ T i m Gn) as [[Z0 _]|(n & k & s' & In_ & Gn' & _ & Es & Ep')]; [rewrite Z0 in Ln; discriminate|]. rewrite Ep' in Iv, Ln. rewrite app_length in Ln. cbn [length] in Ln.
      apply in_app_or in Iv. destruct Iv as [Iv|[Ev|[]]]; [apply (IH (i_idx n) (NInner n) Gn' ltac:(cbn [n_path]; lia) v s Iv)|]. injection Ev as <- _. apply (mixed_splits _ _ _ _ _ _ _ _ _ _ _ Td _ _ _ _ _ _ I n s' In_ (nth_error_In _ _ Es)). }
    split; [|exact Wf]. apply (C46_mixed M G); try assumption.
    - rewrite <- K. exact Wf.
    - exact (C46_learnt _ _ _ _ _ _ _ _ _ _ _ _ _ _ _ E).
    - rewrite <- K, <- Lk. intros n In_. destruct (finished_inner _ _ _ _ _ _ _ _ _ _ _ _ _ _ _ _ I n In_) as (_ & _ & s0 & s1 & k & Es & _).
      pose proof (fun s Is => mixed_splits _ _ _ _ _ _ _ _ _ _ _ Td _ _ _ _ _ _ I n s In_ Is) as Ms. split; [apply (Ms (mixed_mk s0)); rewrite Es; left; reflexivity|]. split; [intros s Is; apply Ms, Is|].
      intros v s Iv. apply (Pth (length (i_path n)) (i_idx n) (NInner n)) with (s := s); [|reflexivity|exact Iv]. unfold get_node. rewrite (in_get_inner _ (ids _ (mx_tree _ _ _ Wf)) n In_). reflexivity.
    - left. pose proof (v_vars _ _ _ _ _ _ _ _ _ _ _ _ _ _ _ I) as (_ & _ & Vp). cbn [s_tree] in Vp. rewrite Vp. rewrite map_length in Ep.
      assert (Pr : forall v d, v < length kinds -> mixed_fit epsilon val D kinds (seq 0 N) v = Ok d -> forall w, nth_error (m_vars M) v = Some w -> lossless (vdom w) d).
      { intros v d Lv Ed w Ew. unfold mixed_fit in Ed. assert (Kv : nth v kinds None = kind_of_type (vdom w)) by (rewrite K; exact (kind_at _ _ _ Ew)). rewrite Kv in Ed. destruct (vdom w) as [t|t]; cbn [kind_of_type] in *.
        - destruct (fitted_samples epsilon (map (fun r => D r v) (seq 0 N)) (map (fun r => D r v) (seq 0 N)) (fun _ => False) (Permutation.Permutation_refl _)) as (p & Ef & Ok_ & _).
          + destruct N; [lia|discriminate].
          + apply Forall_forall. intros x Ix. apply in_map_iff in Ix. destruct Ix as (r & <- & Ir). apply in_seq in Ir. apply (tr_number _ _ _ _ _ _ _ _ Td); [lia|exact Lv|exact Kv].
          + intros lo _. right. intros [].
          + rewrite Ef in Ed. injection Ed as <-. exact (numeric_lossless _ p Ok_).
        - destruct (fit_values (n_values (dom_of t)) (map (fun r => int_at val D r v) (seq 0 N))) as (p & Ef & Lp & _).
          + destruct N; [lia|discriminate].
          + intros x Ix. apply in_map_iff in Ix. destruct Ix as (r & <- & Ir). apply in_seq in Ir. apply (mixed_index _ _ _ _ _ _ _ _ Td); [lia|exact Lv|exact Kv].
          + rewrite Ef in Ed. injection Ed as <-. split; [reflexivity|exact Lp]. }
      destruct (mapM_nth _ _ _ _ _ Ep) as [Lps Hps]. rewrite seq_length in Lps. clear - Pr Lps Hps Lk.
      assert (Gl : forall ws ds, length ws = length ds -> (forall v w d, nth_error ws v = Some w -> nth_error ds v = Some d -> lossless (vdom w) d) -> Forall2 (fun (w : VarModel.var mtype TreeJson.num) d => lossless (vdom w) d) ws ds).
      { clear. induction ws as [|w ws IH]; intros [|d ds] L H; try discriminate L; constructor; [exact (H 0 w d eq_refl eq_refl)|]. apply IH; [cbn [length] in L; lia|]. intros v w' d' E1 E2. exact (H (S v) w' d' E1 E2). }
      apply Gl; [lia|]. intros v w d Ew Ed. assert (Lv : v < length kinds) by (rewrite <- Lps; apply nth_error_Some; congruence). destruct (Hps v v) as (d' & Ed' & Ef); [rewrite (nth_error_nth' _ 0) by (rewrite seq_length; exact Lv); rewrite seq_nth by exact Lv; reflexivity|].
      rewrite Ed in Ed'. injection Ed' as <-. exact (Pr v d Lv Ef w Ew). }
  split; [exact Wr|]. intro dflt.
  destruct (C46_json_partial _ _ mcodec M dflt Wr) as (d & M' & E1 & E2 & V & _ & _ & _ & _ & _ & _ & _ & _ & St). destruct (C46_copy _ _ mcodec M dflt Wr) as (M2 & E3 & V2 & _ & _ & _ & _ & _ & _ & _ & _ & St2 & _).
  exists d, M', M2. split; [exact E1|]. split; [exact E2|]. split; [exact E3|]. split; [exact St|]. split; [exact St2|]. split; [exact V|]. split; [exact V2|]. intros v Lv.
  assert (exists w, nth_error (m_vars M) v = Some w) as (w & Ew). { destruct (nth_error (m_vars M) v) as [w|] eqn:Q; [exists w; reflexivity|]. apply nth_error_None in Q. rewrite K, map_length in Lv. lia. }
  assert (Hw : full (m_tree M) v = TreeJson.whole mcodec (vdom w)).
  { rewrite (mx_full _ _ _ Wf). unfold MixedProps.whole, is_numeric. assert (Kv : nth v kinds None = kind_of_type (vdom w)) by (rewrite K; exact (kind_at _ _ _ Ew)). destruct (vdom w) as [t|t]; cbn [kind_of_type] in Kv.
    - rewrite Kv. reflexivity.
    - rewrite (domain_of kinds v _ Kv), Kv. reflexivity. }
  rewrite Hw. split; [apply (proj2 (proj2 (proj2 (proj2 (proj2 St)))))|apply (proj2 (proj2 (proj2 (proj2 (proj2 St2)))))]; exact Ew.
Qed.
Print Assumptions C46_mixed_learnt.

(** The tree that is read is equal to the one that was written exactly if the settings of
    all variables are the default ones and all variables are known to the dependencies. *)
Lemma mset_same_refl : forall s : TreeModel.vset (mixed numeric discrete), set_same mcodec s s = true.
Proof.
  intros [[c|l]|s]; cbn [set_same mcodec mset_same]; [apply cs_eq_same| |apply nats_same_refl]. induction l as [|c l IH]; [reflexivity|]. cbn [cs_list_eq]. rewrite cs_eq_same. exact IH.
Qed.
Lemma mdist_same_refl : forall d : dist (mixed numeric discrete), dist_same mcodec d d = true.
Proof. intros [p|d]; cbn [dist_same mcodec]; [unfold ndist_eqb; rewrite plf_eq_same; reflexivity|apply ddist_eqb_refl]. Qed.
Lemma mtype_equiv_refl : forall t, mtype_equiv t t = true.
Proof.
  intros [[c|c m s]|t]; cbn [mtype_equiv ntype_equiv]; [apply String.eqb_refl| |apply type_equiv_refl]. rewrite String.eqb_refl. cbn [andb]. apply andb_true_iff. split; apply Qeq_bool_iff; reflexivity.
Qed.
Theorem C46_mixed_equal : forall (M : @model (mixed numeric discrete) mtype) dflt, writable mcodec M ->
  exists d M', to_json mcodec M = Ok d /\ from_json mcodec dflt None d = Ok M' /\
    (model_eqb mcodec M' M = true <->
     (forall w, In w (m_vars M) -> settings_eqb (defaults (Some 0%Q : TreeJson.num) (Some (1 # 100)%Q) (vk w)) (VarModel.vset w) = true) /\
     (forall w, In w (m_vars M) -> In w (map snd (vm_vars (m_deps M))))).
Proof.
  intros M dflt Wr. destruct (C46_equal mcodec mset_same_refl mdist_same_refl M dflt Wr) as (d & M' & E1 & E2 & H). exists d, M'. split; [exact E1|]. split; [exact E2|]. rewrite H.
  assert (K : forall w : VarModel.var mtype TreeJson.num, var_eqb mcodec (reset w) w = settings_eqb (defaults (Some 0%Q : TreeJson.num) (Some (1 # 100)%Q) (vk w)) (VarModel.vset w)).
  { intro w. unfold var_eqb. cbn [reset vk vname vdom VarModel.vset dom_equiv mcodec]. rewrite String.eqb_refl, mtype_equiv_refl. destruct (vk w); reflexivity. }
  split; intros (A & B); (split; [|exact B]); intros w I; specialize (A w I); [rewrite <- K|rewrite K]; exact A.
Qed.
Print Assumptions C46_mixed_equal.

(** *** A learnt tree with a numeric and a symbolic variable *)
Definition made_of (vars : list (VarModel.var mtype TreeJson.num)) (J : mtree) : @model (mixed numeric discrete) mtype :=
  match mk_model mcodec (inl (NC RR)) vars [] [] (SInt 1) SNone SNone SNone None with
  | Ok M => with_tree M J
  | Err _ => Model [] [] [] SNone SNone SNone SNone (VM [] []) (VM [] []) J
  end.
Lemma made_of_facts : forall vars J, let M := made_of vars J in
  m_vars M = vars /\ m_tree M = J /\ as_constructed mcodec M /\ m_distances M = VM (vm_declare vname vars) [].
Proof.
  intros vars J. cbn zeta. unfold made_of, as_constructed. destruct (mk_model mcodec (inl (NC RR)) vars [] [] (SInt 1) SNone SNone SNone None) as [M0|e] eqn:E.
  - assert (X : m_vars M0 = vars /\ m_distances M0 = VM (vm_declare vname vars) []). { unfold mk_model in E. match type of E with bind ?m _ = _ => destruct m; [|discriminate E] end. cbn [bind] in E. injection E as <-. split; reflexivity. }
    destruct X as (X1 & X2). cbn [with_tree m_vars m_tree m_distances]. split; [exact X1|]. split; [reflexivity|]. split; [|exact X2].
    rewrite X1. exists (inl (NC RR)), [], [], (SInt 1), SNone, SNone, SNone, None, M0. split; [exact E|]. split; [intros w []|]. split; [intros w []|]. split; [discriminate|]. do 6 (split; [reflexivity|]). reflexivity.
  - exfalso. unfold mk_model, vm_new in E.
    assert (Gf : forall c l m, exists m', vm_fill vname m (map (fun v : VarModel.var mtype TreeJson.num => (KVar v, c : list (VarModel.var mtype TreeJson.num))) l) = Ok m') by (clear; intros c l; induction l as [|x l IH]; intro m; [exists m; reflexivity|]; cbn [map vm_fill vm_set bind]; apply IH).
    match type of E with context [vm_fill vname ?m (map (fun v => (KVar v, ?c)) ?l)] => destruct (Gf c l m) as (m' & Em); rewrite Em in E end. discriminate E.
Qed.
Definition jx (t : ntype) : VarModel.var mtype TreeJson.num := Var KNumeric "x" (inl t) (defaults (Some 0%Q : TreeJson.num) (Some (1 # 100)%Q) KNumeric).
Definition jy : VarModel.var mtype TreeJson.num := Var KSymbolic "y" (inr (SymType "Y" [LStr "a"; LStr "b"])) (defaults (Some 0%Q : TreeJson.num) (Some (1 # 100)%Q) KSymbolic).
Lemma jxy_writable : forall t J, keeps t -> learn_mixed (1 # 20) dval (fun x => Z.abs x =? ORD_INF)%Z (- num 0)%Z n_data n_imp n_kinds up_mid 0 None 4 = Ok J -> writable mcodec (made_of [jx t; jy] J).
Proof.
  intros t J Kt E. destruct (made_of_facts [jx t; jy] J) as (V1 & V2 & V3 & V4).
  apply (C46_mixed_learnt (1 # 20) dval (fun x => Z.abs x =? ORD_INF)%Z (- num 0)%Z n_data n_imp n_kinds n_G up_mid 0 None 4 (made_of [jx t; jy] J) n_trainable).
  - rewrite V2. exact E.
  - rewrite V1. reflexivity.
  - rewrite V1. cbn. repeat constructor; cbn; intuition discriminate.
  - rewrite V1. intros w [<-|[<-|[]]]; [exact Kt|]. split; [reflexivity|exact Logic.I].
  - exact V3.
  - rewrite V4. apply (made_new vname [jx t; jy]). reflexivity.
  - rewrite V4. intros n [].
Qed.
Example C46_mixed_example : exists J d M', n_learn = Ok J /\ to_json mcodec (made_of [jx (ScaledType "X" 1 2); jy] J) = Ok d /\ from_json mcodec (inl (NC RR)) None d = Ok M' /\
  same_tree mcodec [jx (ScaledType "X" 1 2); jy] J (m_tree M') /\ model_eqb mcodec M' (made_of [jx (ScaledType "X" 1 2); jy] J) = true.
Proof.
  set (t := ScaledType "X" 1 2). destruct (C35_learn_mixed_partial (1 # 20) dval (fun x => Z.abs x =? ORD_INF)%Z (- num 0)%Z n_data n_imp n_kinds n_G up_mid 0 None 4 n_trainable ltac:(lia)) as (J & E & _). exists J.
  pose proof (jxy_writable t J Logic.I E) as Wr. destruct (made_of_facts [jx t; jy] J) as (V1 & V2 & _). destruct (C46_json_partial _ _ mcodec _ (inl (NC RR)) Wr) as (d & M' & E1 & E2 & _ & _ & _ & _ & _ & _ & _ & _ & _ & St). rewrite V1, V2 in St.
  exists d, M'. split; [exact E|]. split; [exact E1|]. split; [exact E2|]. split; [exact St|].
  destruct (C46_mixed_equal _ (inl (NC RR)) Wr) as (d' & M2 & E1' & E2' & H). rewrite E1 in E1'. injection E1' as <-. rewrite E2 in E2'. injection E2' as <-. apply H. rewrite V1. split; intros w [<-|[<-|[]]]; try reflexivity; vm_compute; auto.
Qed.

(** A numeric variable whose domain is a subclass of Numeric: the tree that is read has
    another variable and differs from the one that was written. *)
Theorem C46_subclass_refuted : exists (M : @model (mixed numeric discrete) mtype) d M', n_learn = Ok (m_tree M) /\ as_constructed mcodec M /\
  to_json mcodec M = Ok d /\ from_json mcodec (inl (NC RR)) None d = Ok M' /\ model_eqb mcodec M' M = false.
Proof.
  assert (Q : exists J, n_learn = Ok J) by (destruct (C35_learn_mixed_partial (1 # 20) dval (fun x => Z.abs x =? ORD_INF)%Z (- num 0)%Z n_data n_imp n_kinds n_G up_mid 0 None 4 n_trainable ltac:(lia)) as (J & E & _); exists J; exact E). destruct Q as (J & E).
  set (t := NumType "Temperature"). destruct (made_of_facts [jx t; jy] J) as (V1 & V2 & V3 & V4).
  assert (B : match n_learn with Ok J => match to_json mcodec (made_of [jx t; jy] J) with Ok d => match from_json mcodec (inl (NC RR)) None d with Ok M' => negb (model_eqb mcodec M' (made_of [jx t; jy] J)) | Err _ => false end | Err _ => false end | Err _ => false end = true) by (vm_compute; reflexivity).
  rewrite E in B. destruct (to_json mcodec (made_of [jx t; jy] J)) as [d|] eqn:E1; [|discriminate B]. destruct (from_json mcodec (inl (NC RR)) None d) as [M'|] eqn:E2; [|discriminate B].
  exists (made_of [jx t; jy] J), d, M'. split; [rewrite V2; exact E|]. split; [exact V3|]. split; [exact E1|]. split; [exact E2|]. apply negb_true_iff. exact B.
Qed.
Print Assumptions C46_subclass_refuted.
