(** C27-C32, C56, C58-C62: categorical distributions.

    Reading guide.  A symbolic or integer type is its list of labels (distinct);
    a distribution over it is a parameter vector of the same length.
    [lmass labels params T] is the textbook probability of the event "the label
    satisfies T": the sum of the parameters of those labels.  [proper] says that
    parameters are non-negative and sum to 1.  [sym_*] are the operations of
    symbolic distributions (Multinomial), [num_*] those of Integer. *)
Require Import String QArith Qabs ZArith Bool List Arith Lia Lqa Permutation Sorted.
Require Import Verif.Base Verif.NumBase Verif.UtilModel Verif.UtilProofs Verif.DiscreteModel Verif.DiscreteProofs Verif.DiscreteProofs2.
Import ListNotations.
Open Scope Q_scope.

Definition faithful {L} (Leqb : L -> L -> bool) : Prop := forall a b, Leqb a b = true <-> a = b.
(** The event "the label is one of [es]". *)
Definition among {L} (Leqb : L -> L -> bool) (es : list L) (l : L) : bool := existsb (Leqb l) es.

(** *** C27 *)
Theorem C27_probability_of_label_event : forall L Leqb (ls : list L) ps es,
  faithful Leqb -> NoDup ls -> length ps = length ls -> (forall l, In l es -> In l ls) ->
  exists q, sym_p L Leqb ls ps es = Ok q /\ num_p L Leqb ls ps es = Ok q /\ q == lmass ls ps (among Leqb es).
Proof. intros L Leqb ls ps es F N E H. exact (sym_p_ok L Leqb F ls ps es N E H). Qed.

Theorem C27_unknown_labels_rejected : forall L Leqb (ls : list L) ps es l,
  faithful Leqb -> In l es -> ~ In l ls -> sym_p L Leqb ls ps es = Err ValueError /\ num_p L Leqb ls ps es = Err ValueError.
Proof. intros L Leqb ls ps es l F. exact (sym_p_err L Leqb F ls ps es l). Qed.

Theorem C27_fitted_is_a_measure : forall L Leqb (ls data : list L),
  faithful Leqb -> NoDup ls -> data <> [] -> (forall l, In l data -> In l ls) ->
  exists ps, lab_fit L Leqb ls data = Ok ps /\ length ps = length ls /\ proper ps /\
    (forall T, lmass ls ps T == Qn (List.length (filter T data)) / Qn (List.length data)) /\
    (forall T, 0 <= lmass ls ps T /\ lmass ls ps T <= 1) /\
    lmass ls ps (fun _ => true) == 1 /\ lmass ls ps (fun _ => false) == 0 /\
    (forall S T, (forall l, S l && T l = false) -> lmass ls ps (fun l => S l || T l) == lmass ls ps S + lmass ls ps T).
Proof.
  intros L Leqb ls data F N D H. destruct (lab_fit_spec L Leqb F ls data N D H) as (ps & E & Lp & [P S1] & G).
  exists ps. split; [exact E|]. split; [exact Lp|]. split; [split; assumption|]. split; [exact G|].
  assert (Full : lmass ls ps (fun _ => true) == 1) by (rewrite mass_full by auto; exact S1).
  split; [|split; [exact Full|split; [apply mass_empty|]]].
  - intro T. split; [apply mass_nonneg, P|]. rewrite <- Full. apply mass_mono; [exact P|reflexivity].
  - intros S T Dj. rewrite <- mass_or. rewrite (mass_ext L ls ps (fun l => S l && T l) (fun _ => false)) by auto. rewrite mass_empty. lra.
Qed.

Theorem C27_measure_laws : forall L (ls : list L) ps, length ps = length ls -> proper ps ->
  lmass ls ps (fun _ => true) == 1 /\
  (forall T, 0 <= lmass ls ps T) /\
  (forall S T, (forall l, S l = true -> T l = true) -> lmass ls ps S <= lmass ls ps T) /\
  (forall S T, lmass ls ps (fun l => S l || T l) == lmass ls ps S + lmass ls ps T - lmass ls ps (fun l => S l && T l)) /\
  (forall T, lmass ls ps (fun l => negb (T l)) == 1 - lmass ls ps T).
Proof.
  intros L ls ps E [P S1]. assert (Full : lmass ls ps (fun _ => true) == 1) by (rewrite mass_full by auto; exact S1).
  split; [exact Full|]. split; [intro; apply mass_nonneg, P|]. split; [intros; apply mass_mono; assumption|]. split.
  - intros S T. pose proof (mass_or L ls ps S T). lra.
  - intro T. pose proof (mass_or L ls ps T (fun l => negb (T l))) as M.
    rewrite (mass_ext L ls ps (fun l => T l || negb (T l)) (fun _ => true)) in M by (intros; apply orb_negb_r).
    rewrite (mass_ext L ls ps (fun l => T l && negb (T l)) (fun _ => false)) in M by (intros; apply andb_negb_r).
    rewrite mass_empty, Full in M. lra.
Qed.

Local Open Scope string_scope.
Example C27_example : lab_fit string String.eqb ["a"; "b"; "c"] ["a"; "c"; "a"; "a"] = Ok [0 + (1 # 4) + (1 # 4) + (1 # 4); 0; 0 + (1 # 4)]
  /\ sym_p string String.eqb ["a"; "b"; "c"] [3 # 4; 0; 1 # 4] ["c"; "a"; "c"] = Ok ((3 # 4) + ((1 # 4) + 0)).
Proof. split; vm_compute; reflexivity. Qed.

(** *** C28 *)
Theorem C28_crop_conditions_partial : forall L Leqb (ls : list L) ps es,
  faithful Leqb -> NoDup ls -> length ps = length ls -> Forall (fun p => 0 <= p) ps -> (forall l, In l es -> In l ls) ->
  (lmass ls ps (among Leqb es) == 0 -> sym_crop L Leqb ls ps es = Err Unsatisfiability) /\
  (~ lmass ls ps (among Leqb es) == 0 -> exists r, sym_crop L Leqb ls ps es = Ok r /\ length r = length ps /\ proper r /\
     forall T, lmass ls r T == lmass ls ps (fun l => among Leqb es l && T l) / lmass ls ps (among Leqb es)).
Proof. intros L Leqb ls ps es F. exact (sym_crop_spec L Leqb F ls ps es). Qed.

Theorem C28_integer_crop_conditions : forall L Leqb (ls : list L) ps es,
  faithful Leqb -> NoDup ls -> length ps = length ls -> Forall (fun p => 0 <= p) ps -> (forall l, In l es -> In l ls) ->
  (lmass ls ps (among Leqb es) == 0 -> num_crop L Leqb ls ps es = Err Unsatisfiability) /\
  (~ lmass ls ps (among Leqb es) == 0 -> exists r, num_crop L Leqb ls ps es = Ok r /\ length r = length ps /\ proper r /\
     forall T, lmass ls r T == lmass ls ps (fun l => among Leqb es l && T l) / lmass ls ps (among Leqb es)).
Proof. intros L Leqb ls ps es F. exact (num_crop_spec L Leqb F ls ps es). Qed.

Theorem C28_crop_leaves_receiver : forall st r restriction, (r < length st)%nat ->
  (forall q, (q < length st)%nat -> deref (fst (obj_crop st r restriction)) q = deref st q) /\
  match snd (obj_crop st r restriction), mn_crop (deref st r) restriction with
  | Ok c, Ok ps => (length st <= c)%nat /\ deref (fst (obj_crop st r restriction)) c = ps
  | Err e, Err e' => e = e'
  | _, _ => False
  end.
Proof. exact obj_crop_spec. Qed.

Theorem C28_unknown_labels_rejected : forall L Leqb (ls : list L) ps es l,
  faithful Leqb -> In l es -> ~ In l ls -> sym_crop L Leqb ls ps es = Err ValueError /\ num_crop L Leqb ls ps es = Err ValueError.
Proof. intros L Leqb ls ps es l F. exact (crop_unknown L Leqb F ls ps es l). Qed.

(** Cropping a symbolic distribution to one label (given bare, not in a set) does
    not raise although the label has probability zero. *)
Theorem C28_single_label_refuted : exists (ls : list string) ps l r,
  NoDup ls /\ length ps = length ls /\ proper ps /\ In l ls /\ lmass ls ps (String.eqb l) == 0 /\
  sym_crop_single string String.eqb ls ps l = Ok r /\ lmass ls r (String.eqb l) == 1.
Proof.
  exists ["a"; "b"], [1; 0], "b", [0; 1]. split; [repeat constructor; cbn; intuition discriminate|].
  split; [reflexivity|]. split; [split; [repeat constructor; discriminate|reflexivity]|]. split; [cbn; auto|].
  split; [reflexivity|]. split; vm_compute; reflexivity.
Qed.

Theorem C28_single_label_partial : forall L Leqb (ls : list L) ps l,
  faithful Leqb -> NoDup ls -> length ps = length ls -> In l ls -> ~ lmass ls ps (Leqb l) == 0 ->
  exists r, sym_crop_single L Leqb ls ps l = Ok r /\ length r = length ps /\
    forall T, lmass ls r T == lmass ls ps (fun x => Leqb l x && T x) / lmass ls ps (Leqb l).
Proof.
  intros L Leqb ls ps l F N E I Nz. unfold sym_crop_single, mn_crop_single, dirac. apply In_nth_error in I. destruct I as [v Ev].
  rewrite (proj2 (l2v1_spec L Leqb F ls l v N) Ev). cbn [bind]. rewrite E.
  destruct (add_at_spec L ls (repeat 0 (length ls)) v 1 l (fun _ => true)) as (r & Er & Lr & _); [apply repeat_length|exact Ev|].
  exists r. split; [exact Er|]. split; [exact Lr|]. intro T.
  destruct (add_at_spec L ls (repeat 0 (length ls)) v 1 l T) as (r' & Er' & _ & M); [apply repeat_length|exact Ev|].
  rewrite Er in Er'. inversion Er'; subst r'. rewrite M, mass_zeros.
  rewrite (mass_ext L ls ps (fun x => Leqb l x && T x) (fun x => if T l then Leqb l x else false)).
  2:{ intros x _. destruct (Leqb l x) eqn:Q; cbn; [apply F in Q; subst; destruct (T x); reflexivity|destruct (T l); reflexivity]. }
  destruct (T l).
  - rewrite Qdiv_same by exact Nz. lra.
  - rewrite mass_empty. field. exact Nz.
Qed.

Example C28_example : sym_crop string String.eqb ["a"; "b"; "c"] [1 # 2; 1 # 4; 1 # 4] ["b"; "c"] = Ok [0 / (0 + ((1 # 4) + ((1 # 4) + 0))); (1 # 4) / (0 + ((1 # 4) + ((1 # 4) + 0))); (1 # 4) / (0 + ((1 # 4) + ((1 # 4) + 0)))]
  /\ sym_crop string String.eqb ["a"; "b"; "c"] [1; 0; 0] ["b"; "c"] = Err Unsatisfiability.
Proof. split; vm_compute; reflexivity. Qed.

(** *** C29 *)
Theorem C29_merge_is_the_mixture : forall L (ls : list L) ds ws r, ls <> [] -> length ds = length ws ->
  Forall (fun d => length d = length ls /\ proper d) ds -> Forall (fun w => 0 <= w) ws ->
  merge (length ls) ds ws = Ok r ->
  length r = length ls /\ Forall (fun p => 0 <= p) r /\ Qsum r == Qsum ws /\ Qabs (1 - Qsum ws) <= 1 # 10000000000 /\
  forall T, lmass ls r T == Qsum (map (fun dw => snd dw * lmass ls (fst dw) T) (combine ds ws)).
Proof. exact merge_spec. Qed.

Theorem C29_merge_defined : forall L (ls : list L) ds ws, ds <> [] -> length ds = length ws ->
  Forall (fun d => length d = length ls /\ proper d) ds -> Qsum ws == 1 -> exists r, merge (length ls) ds ws = Ok r.
Proof. exact merge_total. Qed.

Theorem C29_bad_weights_rejected : forall n ds ws, ds <> [] -> (1 # 10000000000) < Qabs (1 - Qsum ws) -> merge n ds ws = Err ValueError.
Proof. exact merge_rejects. Qed.

(** With more weights than distributions the surplus is silently dropped. *)
Theorem C29_surplus_weights_refuted : exists ds ws r, Forall (fun d => length d = 2%nat /\ proper d) ds /\ Qsum ws == 1 /\
  merge 2 ds ws = Ok r /\ ~ Qsum r == 1.
Proof.
  exists [[1 # 2; 1 # 2]], [1 # 4; 3 # 4]. eexists. split; [|split; [reflexivity|split; [vm_compute; reflexivity|vm_compute; discriminate]]].
  repeat constructor; discriminate.
Qed.

Theorem C29_update_is_the_mixture : forall L (ls : list L) ps d w, length ps = length ls -> length d = length ls -> 0 <= w -> w <= 1 ->
  proper ps -> proper d ->
  exists r, update (length ls) (Some ps) d w = Ok r /\ length r = length ls /\ proper r /\
    forall T, lmass ls r T == (1 - w) * lmass ls ps T + w * lmass ls d T.
Proof. exact update_spec. Qed.

Theorem C29_update_changes_only_the_receiver : forall st r d w, (r < length st)%nat -> r <> d ->
  (forall q, q <> r -> deref (fst (obj_update st r d w)) q = deref st q) /\
  match snd (obj_update st r d w), update (length (deref st r)) (Some (deref st r)) (deref st d) w with
  | Ok c, Ok ps => c = r /\ deref (fst (obj_update st r d w)) r = ps
  | Err e, Err e' => e = e'
  | _, _ => False
  end.
Proof. exact obj_update_spec. Qed.

(** Updating a distribution with itself is not a mixture. *)
Theorem C29_self_update_refuted : exists st r w, proper (deref st r) /\ 0 <= w <= 1 /\
  snd (obj_update st r r w) = Ok r /\ ~ Qsum (deref (fst (obj_update st r r w)) r) == 1.
Proof.
  exists [[1 # 2; 1 # 2]], 0%nat, (1 # 2). split; [split; [repeat constructor; discriminate|reflexivity]|].
  split; [split; discriminate|]. split; [reflexivity|vm_compute; discriminate].
Qed.

Example C29_example : exists r, merge 2 [[1; 0]; [1 # 2; 1 # 2]] [1 # 3; 2 # 3] = Ok r /\ Qleq r [2 # 3; 1 # 3].
Proof. eexists. split; [vm_compute; reflexivity|]. repeat constructor. Qed.

(** *** C30 *)
Theorem C30_k_mpe_levels_partial : forall ps,
  StronglySorted (fun a b => snd b < snd a) (k_mpe ps None) /\
  (forall S p, In (S, p) (k_mpe ps None) -> ~ p == 0 /\ S <> [] /\ NoDup S /\ forall v, In v S <-> exists q, nth_error ps v = Some q /\ q == p) /\
  (forall v q, nth_error ps v = Some q -> ~ q == 0 -> exists S p, In (S, p) (k_mpe ps None) /\ In v S).
Proof. exact k_mpe_levels. Qed.

Theorem C30_k_mpe_prefix : forall ps k, k_mpe ps (Some k) = firstn k (k_mpe ps None).
Proof. exact k_mpe_prefix. Qed.

Theorem C30_mpe_is_the_maximum : forall ps, proper ps -> exists S p, mpe ps = Ok (S, p) /\ 0 < p /\
  (forall v, In v S <-> exists q, nth_error ps v = Some q /\ forall v' q', nth_error ps v' = Some q' -> q' <= q) /\
  (forall v q, In v S -> nth_error ps v = Some q -> q == p) /\ S <> [].
Proof. exact mpe_spec. Qed.

(** States of probability zero are in no level. *)
Theorem C30_covers_every_state_refuted : exists ps v, proper ps /\ (v < length ps)%nat /\
  forall S p, In (S, p) (k_mpe ps None) -> ~ In v S.
Proof.
  exists [1; 0], 1%nat. split; [split; [repeat constructor; discriminate|reflexivity]|]. split; [cbn; lia|].
  intros S p I J. change (k_mpe [1; 0] None) with [([0%nat], 1)] in I. destruct I as [I|[]]. inversion I; subst. destruct J as [J|[]]. discriminate.
Qed.

Example C30_example : k_mpe [1 # 5; 2 # 5; 1 # 5; 1 # 5] None = [([1%nat], 2 # 5); ([0; 2; 3]%nat, 1 # 5)].
Proof. vm_compute. reflexivity. Qed.

(** *** C31 *)
Theorem C31_symbolic_type : forall L Leqb (ls : list L), faithful Leqb ->
  ((exists t, SymbolicType L Leqb ls = Ok t) <-> ls <> [] /\ NoDup ls) /\ (forall t, SymbolicType L Leqb ls = Ok t -> t = ls).
Proof. intros L Leqb ls F. split; [exact (symbolic_ok L Leqb F ls)|exact (symbolic_id L Leqb ls)]. Qed.

Theorem C31_single_bijection : forall L Leqb (ls : list L) v l, faithful Leqb -> NoDup ls ->
  (label2value1 L Leqb ls l = Ok v <-> value2label1 L ls v = Ok l).
Proof. intros L Leqb ls v l F N. rewrite (l2v1_spec L Leqb F ls l v N), v2l1_spec. tauto. Qed.

Theorem C31_collection_bijection : forall L Leqb (ls : list L) vs es, faithful Leqb -> NoDup ls ->
  (label2value L Leqb ls es = Ok vs <-> value2label L ls vs = Ok es).
Proof.
  intros L Leqb ls vs es F N. rewrite (l2v_spec L Leqb F ls es vs N), v2l_spec. split; intro H; induction H; constructor; assumption.
Qed.

Theorem C31_labels_accepted_iff_known : forall L Leqb (ls : list L) es, faithful Leqb ->
  ((exists vs, label2value L Leqb ls es = Ok vs) <-> forall l, In l es -> In l ls) /\
  (forall e, label2value L Leqb ls es = Err e -> e = ValueError) /\
  (forall vs, (exists rs, value2label L ls vs = Ok rs) <-> forall v, In v vs -> (v < length ls)%nat) /\
  (forall vs e, value2label L ls vs = Err e -> e = ValueError).
Proof.
  intros L Leqb ls es F. split; [|split; [|split]].
  - split.
    + intros [vs E] l I. destruct (in_dec (fun a b => match bool_dec (Leqb a b) true with
           | Coq.Init.Specif.left e => Coq.Init.Specif.left (proj1 (F a b) e)
           | Coq.Init.Specif.right n => Coq.Init.Specif.right (fun q => n (proj2 (F a b) q)) end) l ls) as [J|J]; [exact J|].
      exfalso. assert (X : label2value L Leqb ls es = Err ValueError) by (apply (l2v_err L Leqb F); eauto). congruence.
    + intro H. destruct (l2v_total L Leqb F ls es H) as (vs & E & _). eauto.
  - intros e E. apply (l2v_err L Leqb F) in E. tauto.
  - intro vs. split.
    + intros [rs E] v I. apply v2l_spec in E. induction E as [|v' l vs rs E' E IH]; [destruct I|].
      destruct I as [->|I]; [apply nth_error_Some; congruence|auto].
    + intro H. assert (exists rs, Forall2 (fun v l => nth_error ls v = Some l) vs rs) as [rs X]; [|exists rs; apply v2l_spec; exact X].
      induction vs as [|v vs IH]; [exists []; constructor|]. destruct IH as [rs X]; [intros; apply H; right; assumption|].
      specialize (H v (or_introl eq_refl)). destruct (nth_error ls v) as [l|] eqn:E; [|apply nth_error_None in E; lia].
      exists (l :: rs). constructor; assumption.
  - intros vs e E. unfold value2label in E. destruct (forallb _ vs) eqn:B; [|inversion E; reflexivity].
    exfalso. revert e E. clear es. induction vs as [|v vs IH]; intros e E; cbn in E; [discriminate|].
    cbn in B. apply andb_true_iff in B. destruct B as [B1 B2]. apply Nat.ltb_lt in B1. unfold value2label1 in E at 1.
    destruct (nth_error ls v) eqn:En; [|apply nth_error_None in En; lia]. cbn [bind] in E.
    destruct (mapM (value2label1 L ls) vs) eqn:M; cbn [bind] in E; [discriminate|]. apply (IH B2 e0). reflexivity.
Qed.

Theorem C31_integer_labels : forall lmin lmax ls, IntegerType lmin lmax = Ok ls ->
  NoDup ls /\ (forall z, In z ls <-> (lmin <= z <= lmax)%Z) /\ (forall v z, nth_error ls v = Some z <-> (Z.of_nat v = z - lmin /\ lmin <= z <= lmax)%Z).
Proof.
  intros lo hi ls E. unfold IntegerType in E. destruct (hi <? lo)%Z eqn:C; [discriminate|]. apply Z.ltb_ge in C. inversion E; subst.
  change (map (fun k : nat => (lo + Z.of_nat k)%Z) (seq 0 (Z.to_nat (hi - lo + 1)))) with (Zrange lo (Z.to_nat (hi - lo + 1))).
  split; [apply Zrange_nodup|]. split; [intro z; rewrite Zrange_in; lia|]. intros v z. split.
  - intro H. assert (V : (v < Z.to_nat (hi - lo + 1))%nat) by (rewrite <- (Zrange_length lo); apply nth_error_Some; congruence).
    rewrite Zrange_nth in H by exact V. inversion H. lia.
  - intros [A B]. rewrite Zrange_nth by lia. f_equal. lia.
Qed.

Theorem C31_integer_type_rejects : forall lmin lmax, IntegerType lmin lmax = Err ValueError <-> (lmax < lmin)%Z.
Proof. intros. unfold IntegerType. destruct (lmax <? lmin)%Z eqn:C; [apply Z.ltb_lt in C|apply Z.ltb_ge in C]; split; intro; try discriminate; try reflexivity; lia. Qed.

Example C31_example : label2value string String.eqb ["x"; "y"; "z"] ["z"; "x"] = Ok [2; 0]%nat /\ value2label string ["x"; "y"; "z"] [2; 0]%nat = Ok ["z"; "x"]
  /\ IntegerType (-1) 2 = Ok [-1; 0; 1; 2]%Z.
Proof. repeat split; vm_compute; reflexivity. Qed.

(** *** C32.  [iexp d g] is the sum of g(label) * parameter over the labels of d. *)
Theorem C32_sum_convolves : forall a b, iwf a -> iwf b -> exists r, int_add a b = Ok r /\ iwf r /\
  lmin r = (lmin a + lmin b)%Z /\ lmax r = (lmax a + lmax b)%Z /\
  (forall k, lmass (ilabels r) (iparams r) (fun z => Z.eqb z k) == 
     Qsum (map (fun ip => Qsum (map (fun jq => if Z.eqb (fst ip + fst jq) k then snd ip * snd jq else 0) (combine (ilabels b) (iparams b)))) (combine (ilabels a) (iparams a)))) /\
  (forall g, iexp r g == iexp a (fun i => iexp b (fun j => g (i + j)%Z))).
Proof.
  intros a b Wa Wb. destruct (int_add_spec a b Wa Wb) as (r & E & Wr & Lm & LM & G). exists r.
  split; [exact E|]. split; [exact Wr|]. split; [exact Lm|]. split; [exact LM|]. split; [|exact G].
  intro k. rewrite iexp_mass, G. unfold iexp. apply Qsum_map_ext. intros [i p] _. cbn [fst snd].
  rewrite <- Qsum_map_scale_r. apply Qsum_map_ext. intros [j q] _. cbn [fst snd]. destruct (Z.eqb (i + j) k); ring.
Qed.

Theorem C32_sum_is_proper : forall a b r, iwf a -> iwf b -> proper (iparams a) -> proper (iparams b) -> int_add a b = Ok r -> proper (iparams r).
Proof.
  intros a b r Wa Wb Pa Pb E. split; [apply (int_add_nonneg a b r Wa Wb); [apply Pa|apply Pb|exact E]|].
  destruct (int_add_spec a b Wa Wb) as (r' & E' & Wr & _ & _ & G). rewrite E in E'. inversion E'; subst r'.
  rewrite <- (mass_full Z (ilabels r)) by (apply ilabels_length, Wr). rewrite iexp_mass.
  rewrite (G (fun _ => 1)). transitivity (iexp a (fun _ => 1)); [|apply iexp_const; assumption].
  apply iexp_ext. intro. apply iexp_const; assumption.
Qed.

Theorem C32_expectation_adds : forall a b r, iwf a -> iwf b -> proper (iparams a) -> proper (iparams b) -> int_add a b = Ok r ->
  int_expectation r == int_expectation a + int_expectation b.
Proof.
  intros a b r Wa Wb Pa Pb E. destruct (int_add_spec a b Wa Wb) as (r' & E' & Wr & _ & _ & G). rewrite E in E'. inversion E'; subst r'.
  rewrite !int_expectation_iexp, G.
  transitivity (iexp a (fun i => inject_Z i + iexp b inject_Z)).
  - apply iexp_ext. intro i. transitivity (iexp b (fun j => inject_Z i + inject_Z j)); [apply iexp_ext; intro; rewrite inject_Z_plus; reflexivity|].
    rewrite iexp_plus, iexp_const by assumption. reflexivity.
  - rewrite iexp_plus, iexp_const by assumption. reflexivity.
Qed.

Example C32_example : iwf (IDist 1 2 [1 # 2; 1 # 2]) /\ exists ps, int_add (IDist 1 2 [1 # 2; 1 # 2]) (IDist (-1) 1 [1 # 4; 1 # 2; 1 # 4]) = Ok (IDist 0 3 ps)
  /\ Qleq ps [1 # 8; 3 # 8; 3 # 8; 1 # 8].
Proof. split; [split; vm_compute; [discriminate|reflexivity]|]. eexists. split; [vm_compute; reflexivity|repeat constructor]. Qed.

(** *** C56, categorical part *)
Theorem C56_jaccard_categorical : forall a b, length a = length b -> proper a -> proper b ->
  exists j, jaccard a b = Ok j /\ 0 <= j /\ j <= 1 /\ (Qleq a b <-> j == 1).
Proof. exact jaccard_spec. Qed.
Theorem C56_jaccard_categorical_symmetric : forall a b j, jaccard a b = Ok j -> exists j', jaccard b a = Ok j' /\ j' == j.
Proof. exact jaccard_sym. Qed.
Example C56_example : exists j, jaccard [1 # 2; 1 # 2] [1; 0] = Ok j /\ j == 1 # 3.
Proof. eexists. split; [vm_compute; reflexivity|reflexivity]. Qed.

(** *** C58, categorical part: [u] is the outcome of [random.uniform(0, total)]. *)
Theorem C58_categorical_sample_partial : forall L (ls : list L) ps u, length ps = length ls -> Forall (fun p => 0 <= p) ps ->
  0 < u -> u <= Qsum ps ->
  exists l v p, lab_sample L ls ps u = Ok l /\ nth_error ls v = Some l /\ nth_error ps v = Some p /\ 0 < p.
Proof. exact lab_sample_support. Qed.
Theorem C58_categorical_sample_refuted : exists (ls : list string) ps u, proper ps /\ length ps = length ls /\ 0 <= u <= Qsum ps /\
  exists l, lab_sample string ls ps u = Ok l /\ lmass ls ps (String.eqb l) == 0.
Proof.
  exists ["a"; "b"], [0; 1], 0. split; [split; [repeat constructor; discriminate|reflexivity]|]. split; [reflexivity|].
  split; [split; discriminate|]. exists "a". split; vm_compute; reflexivity.
Qed.

(** *** C59: type equivalence *)
(** distributions/utils.py:203-210: two label maps compare equal as soon as one is
    a prefix of the other. *)
Theorem C59_equivalence_same_size_partial : forall L Leqb (a b : list L), faithful Leqb -> length a = length b ->
  (proxy_eq L Leqb a b = true <-> a = b).
Proof.
  intros L Leqb a. induction a as [|x a IH]; intros [|y b] F E; cbn in *; try discriminate; [tauto|].
  rewrite andb_true_iff, (F x y), (IH b) by (assumption || lia). split; [intros [-> ->]; reflexivity|intro H; inversion H; auto].
Qed.
Theorem C59_equivalence_refuted : exists a b : list string, proxy_eq string String.eqb a b = true /\ a <> b.
Proof. exists ["a"], ["a"; "b"]. split; [reflexivity|discriminate]. Qed.

(** *** C60: moments of integer distributions *)
Theorem C60_variance : forall d, iwf d -> proper (iparams d) ->
  0 <= int_variance d /\
  int_variance d == iexp d (fun l => inject_Z l * inject_Z l) - iexp d inject_Z * iexp d inject_Z /\
  int_variance d == int_moment d 2 (int_expectation d).
Proof. exact variance_spec. Qed.
Theorem C60_expectation : forall d, iwf d -> proper (iparams d) ->
  int_expectation d == iexp d inject_Z /\ int_expectation d == int_moment d 1 0 /\ inject_Z (lmin d) <= int_expectation d /\ int_expectation d <= inject_Z (lmax d).
Proof.
  intros d W P. split; [apply int_expectation_iexp|]. split; [|split].
  - rewrite int_expectation_iexp. unfold iexp, int_moment. apply Qsum_map_ext. intros [l p] _. cbn [fst snd Z.of_nat Pos.of_succ_nat Qpower Qpower_positive pow_pos]. ring.
  - rewrite int_expectation_iexp, <- (iexp_const d (inject_Z (lmin d)) W P). unfold iexp. apply Qsum_map_le. intros [l p] I. cbn [fst snd].
    pose proof (in_combine_r _ _ _ _ I) as Ip. apply in_combine_l in I. apply Zrange_in in I. destruct P as [P _]. rewrite Forall_forall in P.
    apply Qmult_le_compat_r; [|auto]. rewrite <- Zle_Qle. lia.
  - rewrite int_expectation_iexp, <- (iexp_const d (inject_Z (lmax d)) W P). unfold iexp. apply Qsum_map_le. intros [l p] I. cbn [fst snd].
    pose proof (in_combine_r _ _ _ _ I) as Ip. apply in_combine_l in I. apply Zrange_in in I. destruct P as [P _]. rewrite Forall_forall in P.
    apply Qmult_le_compat_r; [|auto]. rewrite <- Zle_Qle. lia.
Qed.
Example C60_example : int_variance (IDist 1 2 [1 # 2; 1 # 2]) == 1 # 4 /\ int_expectation (IDist 1 2 [1 # 2; 1 # 2]) == 3 # 2.
Proof. split; reflexivity. Qed.

(** *** C61: the divergence of categorical distributions *)
Theorem C61_divergence : forall a b, length a = length b -> Forall (fun p => 0 <= p) a ->
  0 <= kl_divergence a b /\ (kl_divergence a b == 0 <-> forall v p q, nth_error a v = Some p -> nth_error b v = Some q -> p == 0 \/ p == q).
Proof. exact kl_spec. Qed.
(** For two probability distributions zero divergence does mean equality. *)
Theorem C61_divergence_separates : forall a b, length a = length b -> proper a -> proper b -> (kl_divergence a b == 0 <-> Qleq a b).
Proof.
  intros a b E [Pa Sa] [Pb Sb]. rewrite (proj2 (kl_spec a b E Pa)). split.
  - intro H. assert (D : Forall2 (fun p q => p <= q) a b).
    { clear Sa Sb Pa. revert b E Pb H. induction a as [|p a IH]; intros [|q b] E Pb H; cbn in E; try discriminate; constructor.
      - inversion Pb; subst. destruct (H O p q eq_refl eq_refl); lra.
      - apply IH; [lia|inversion Pb; assumption|]. intros v; apply (H (S v)). }
    assert (T : Qsum a == Qsum b) by lra. clear -D T. induction D as [|p q a b Q D IH]; constructor; cbn in T.
    + assert (Qsum a <= Qsum b) by (clear -D; induction D; cbn; lra). lra.
    + apply IH. assert (Qsum a <= Qsum b) by (clear -D; induction D; cbn; lra). lra.
  - intros H v p q Ep Eq. right. revert v Ep Eq. induction H as [|x y a b Q H IH]; intros [|v] Ep Eq; cbn in *; try discriminate.
    + inversion Ep; inversion Eq; subst; exact Q.
    + inversion Pa; inversion Pb; subst. clear Sa Sb E. revert v Ep Eq. clear -H. induction H as [|x y a b Q H IH]; intros [|v] Ep Eq; cbn in *; try discriminate; [congruence|eauto].
Qed.
Example C61_example : kl_divergence [1 # 2; 1 # 2] [1; 0] == 1 # 2.
Proof. reflexivity. Qed.

Print Assumptions C27_fitted_is_a_measure.
Print Assumptions C28_crop_conditions_partial.
Print Assumptions C28_integer_crop_conditions.
Print Assumptions C29_merge_is_the_mixture.
Print Assumptions C30_mpe_is_the_maximum.
Print Assumptions C31_collection_bijection.
Print Assumptions C32_sum_convolves.
Print Assumptions C56_jaccard_categorical.
Print Assumptions C58_categorical_sample_partial.
Print Assumptions C60_variance.
Print Assumptions C61_divergence_separates.
