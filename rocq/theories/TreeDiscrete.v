(** The symbolic and integer distributions as leaf distributions of a tree: an
    instance of [family] and the proof of its contract. *)
Require Import QArith Qabs Lqa ZArith Bool List Arith Lia Permutation.
Require Import Verif.Base Verif.NumBase Verif.UtilModel Verif.UtilProps Verif.DiscreteModel Verif.DiscreteProofs Verif.DiscreteProofs2 Verif.TreeModel Verif.TreeSpec Verif.TreeInfer.
Import ListNotations.
Open Scope Q_scope.

(** The domain of a variable.  A symbolic label is [Some z] if it is the integer
    [z] and [None] otherwise (only this difference matters to [pdf]). *)
Inductive dom := SymDom (labels : list (option Z)) | IntDom (lo hi : Z).
Definition n_values (D : dom) : nat :=
  match D with SymDom ls => length ls | IntDom lo hi => Z.to_nat (hi - lo + 1) end.

(** A leaf distribution: its domain and its parameters (indexed by value). *)
Record ddist := DDist { d_dom : dom; d_params : list Q }.

(** [distribution.pdf(x)] as called by trees.py:1003 with a value [x]: pdf is
    [p(label)] (multinomial.py:212-213, integer.py:239-240), so that [x] is looked
    up among the labels. *)
Definition olab_eqb (a b : option Z) : bool :=
  match a, b with Some x, Some y => Z.eqb x y | _, _ => false end.
Definition dd_pdf (d : ddist) (x : nat) : res Q :=
  match d_dom d with
  | SymDom ls => do v <- label2value1 (option Z) olab_eqb ls (Some (Z.of_nat x)); mn_p (d_params d) [v]
  | IntDom lo hi => int_p1 (IDist lo hi (d_params d)) (Z.of_nat x)
  end.

Definition dd_p (d : ddist) (s : list nat) : res Q :=
  match d_dom d with SymDom _ => mn_p (d_params d) s | IntDom _ _ => int_p (d_params d) s end.
Definition dd_crop (d : ddist) (s : list nat) : res ddist :=
  do ps <- match d_dom d with SymDom _ => mn_crop (d_params d) s | IntDom _ _ => int_crop (d_params d) s end;
  Ok (DDist (d_dom d) ps).
(** [type(ds[0]).merge(ds, ws)]: all distributions belong to one variable. *)
Definition dd_merge (ds : list ddist) (ws : list Q) : res ddist :=
  match ds with
  | [] => Err IndexError
  | d :: _ => do ps <- merge (n_values (d_dom d)) (map d_params ds) ws; Ok (DDist (d_dom d) ps)
  end.
(** multinomial.py:289-294 (expectation is the set of most probable symbols),
    integer.py:258-260. *)
Definition dd_expectation (d : ddist) : res (Q + list nat) :=
  match d_dom d with
  | SymDom _ => do sp <- DiscreteModel.mpe (d_params d); Ok (inr (fst sp))
  | IntDom lo hi => Ok (inl (int_expectation (IDist lo hi (d_params d))))
  end.
(** integer.py:458-468; symbolic distributions have no moments. *)
Definition dd_moment (order : nat) (center : Q) (d : ddist) : res Q :=
  match d_dom d with
  | SymDom _ => Err AttributeError
  | IntDom lo hi => Ok (int_moment (IDist lo hi (d_params d)) order center)
  end.

Definition discrete : family := {|
  value := nat;
  vset := list nat;
  dist := ddist;
  inter := fun a b => filter (fun v => nmem v b) a;
  disj := fun a b => forallb (fun v => negb (nmem v b)) a;
  single := fun v => [v];
  v_in := fun s v => nmem v s;
  d_p := dd_p;
  d_prob := dd_p;
  d_like := dd_p;
  d_pdf := dd_pdf;
  d_lik := fun d x => pget (d_params d) x;
  d_crop := dd_crop;
  d_merge := dd_merge;
  d_mpe := fun d => DiscreteModel.mpe (d_params d);
  d_expectation := dd_expectation;
  d_moment := dd_moment;
  d_jaccard := fun a b => match jaccard (d_params a) (d_params b) with Ok j => Some j | Err _ => None end
|}.

(** trees.py:97-98: [set(range(n_values))]. *)
Definition domain (doms : list dom) (v : var) : dom := nth v doms (IntDom 0 0).
Definition dfull (doms : list dom) (v : var) : list nat := seq 0 (n_values (domain doms v)).

(** ** The contract *)

Definition pm (ps : list Q) (s : list nat) : Q := lmass (seq 0 (length ps)) ps (fun v => nmem v s).

Definition ok_dist (D : dom) (d : ddist) : Prop :=
  d_dom d = D /\ length (d_params d) = n_values D /\ proper (d_params d).
Definition ok_event (D : dom) (s : list nat) : Prop := Forall (fun v => (v < n_values D)%nat) s.

Lemma nmem_inter : forall a b v, nmem v (filter (fun v => nmem v b) a) = nmem v a && nmem v b.
Proof.
  intros a b v. apply eq_true_iff_eq. rewrite andb_true_iff. unfold nmem at 1 3. rewrite !existsb_exists. split.
  - intros (x & I & E). apply Nat.eqb_eq in E. subst x. apply filter_In in I. destruct I as [I B]. split; [exists v; split; [exact I|apply Nat.eqb_refl]|exact B].
  - intros [(x & I & E) B]. apply Nat.eqb_eq in E. subst x. exists v. split; [apply filter_In; auto|apply Nat.eqb_refl].
Qed.

Lemma pm_nonneg : forall ps s, proper ps -> 0 <= pm ps s.
Proof. intros ps s [N _]. apply mass_nonneg, N. Qed.
Lemma pm_ext : forall ps s t, (forall v, (v < length ps)%nat -> nmem v s = nmem v t) -> pm ps s == pm ps t.
Proof. intros ps s t H. apply mass_ext. intros v I. apply in_seq in I. apply H. lia. Qed.
Lemma pm_full : forall ps n, length ps = n -> proper ps -> pm ps (seq 0 n) == 1.
Proof.
  intros ps n <- [_ S]. unfold pm. rewrite (mass_ext _ _ _ _ (fun _ => true)); [rewrite mass_full by apply seq_length; exact S|].
  intros v I. unfold nmem. apply existsb_exists. exists v. split; [exact I|apply Nat.eqb_refl].
Qed.
Lemma pm_le : forall ps a b, proper ps -> pm ps (filter (fun v => nmem v b) a) <= pm ps a.
Proof. intros ps a b [N _]. apply mass_mono; [exact N|]. intros v H. rewrite nmem_inter in H. apply andb_true_iff in H. apply H. Qed.

Lemma pm_compl : forall ps s, pm ps s + lmass (seq 0 (length ps)) ps (fun v => negb (nmem v s)) == Qsum ps.
Proof.
  intros ps s. pose proof (mass_or nat (seq 0 (length ps)) ps (fun v => nmem v s) (fun v => negb (nmem v s))) as H.
  rewrite (mass_ext _ _ _ (fun l => nmem l s || negb (nmem l s)) (fun _ => true)) in H by (intros; apply orb_negb_r).
  rewrite (mass_ext _ _ _ (fun l => nmem l s && negb (nmem l s)) (fun _ => false)) in H by (intros; apply andb_negb_r).
  rewrite mass_empty, mass_full in H by apply seq_length. unfold pm. lra.
Qed.

Lemma pm_sure : forall ps a b, proper ps -> pm ps b == 1 -> pm ps (filter (fun v => nmem v b) a) == pm ps a.
Proof.
  intros ps a b Pp H. destruct Pp as [N S].
  assert (Z : lmass (seq 0 (length ps)) ps (fun v => negb (nmem v b)) == 0). { pose proof (pm_compl ps b). lra. }
  assert (Z' : lmass (seq 0 (length ps)) ps (fun v => nmem v a && negb (nmem v b)) == 0).
  { pose proof (mass_nonneg nat (seq 0 (length ps)) ps (fun v => nmem v a && negb (nmem v b)) N).
    pose proof (mass_mono nat (seq 0 (length ps)) ps (fun v => nmem v a && negb (nmem v b)) (fun v => negb (nmem v b)) N) as M.
    assert (lmass (seq 0 (length ps)) ps (fun v => nmem v a && negb (nmem v b)) <= lmass (seq 0 (length ps)) ps (fun v => negb (nmem v b))); [|lra].
    apply M. intros v B. apply andb_true_iff in B. apply B. }
  unfold pm at 1. rewrite (mass_ext _ _ _ _ (fun v => nmem v a && nmem v b)) by (intros; apply nmem_inter).
  pose proof (mass_or nat (seq 0 (length ps)) ps (fun v => nmem v a && nmem v b) (fun v => nmem v a && negb (nmem v b))) as O.
  rewrite (mass_ext _ _ _ (fun l => nmem l a && nmem l b || nmem l a && negb (nmem l b)) (fun l => nmem l a)) in O by (intros; destruct (nmem l a), (nmem l b); reflexivity).
  rewrite (mass_ext _ _ _ (fun l => nmem l a && nmem l b && (nmem l a && negb (nmem l b))) (fun l => false)) in O by (intros; destruct (nmem l a), (nmem l b); reflexivity).
  rewrite mass_empty in O. unfold pm. lra.
Qed.

Lemma zero_outside_pm : forall ps s T, lmass (seq 0 (length ps)) (zero_outside ps s) T == lmass (seq 0 (length ps)) ps (fun v => nmem v s && T v).
Proof.
  intros ps s T. unfold zero_outside. apply (zo_mass nat (seq 0 (length ps)) ps (fun v => nmem v s)); [symmetry; apply seq_length|].
  intros i l E. cbn. assert (i < length ps)%nat. { rewrite <- (seq_length (length ps) 0). apply nth_error_Some. congruence. }
  rewrite nth_error_nth' with (d := O) in E by (rewrite seq_length; lia). rewrite seq_nth in E by lia. inversion E. reflexivity.
Qed.

Lemma zero_outside_total : forall ps s, Qsum (zero_outside ps s) == pm ps s.
Proof.
  intros ps s. rewrite <- (mass_full nat (seq 0 (length ps))) by (rewrite zero_outside_length; apply seq_length).
  rewrite zero_outside_pm. apply mass_ext. intros. apply andb_true_r.
Qed.

Definition crop_spec (ps : list Q) (s : list nat) (r : list Q) : Prop :=
  length r = length ps /\ proper r /\ forall t, pm r t == pm ps (filter (fun v => nmem v s) t) / pm ps s.

Lemma crop_scaled : forall ps s r, proper ps -> 0 < pm ps s -> Forall2 (fun w y => y == w * / pm ps s) (zero_outside ps s) r -> crop_spec ps s r.
Proof.
  intros ps s r [N _] Pos F2.
  assert (Len : length r = length ps). { rewrite <- (zero_outside_length ps s). symmetry. clear Pos. induction F2; cbn; congruence. }
  assert (M : forall T, lmass (seq 0 (length ps)) r T == lmass (seq 0 (length ps)) ps (fun v => nmem v s && T v) / pm ps s).
  { intro T. rewrite (mass_F2 nat _ (/ pm ps s) (zero_outside ps s) r T F2). rewrite zero_outside_pm. reflexivity. }
  split; [exact Len|]. split; [split|].
  - pose proof (zero_outside_nonneg ps s N) as Z. clear M Len. revert Z. induction F2 as [|w y z r E F2 IH]; intro Z; constructor.
    + rewrite E. apply Forall_inv in Z. apply Qmult_le_0_compat; [exact Z|]. apply Qlt_le_weak, Qinv_lt_0_compat, Pos.
    + apply IH, (Forall_inv_tail Z).
  - rewrite <- (mass_full nat (seq 0 (length ps)) r) by (rewrite seq_length; auto). rewrite M.
    rewrite (mass_ext _ _ _ _ (fun v => nmem v s)) by (intros; apply andb_true_r). unfold pm in *. field. lra.
  - intro t. unfold pm at 1. rewrite Len, M. apply Qmult_comp; [|reflexivity]. unfold pm. apply mass_ext. intros v _. rewrite nmem_inter. apply andb_comm.
Qed.

Lemma mn_crop_pos : forall ps s, proper ps -> 0 < pm ps s -> exists r, mn_crop ps s = Ok r /\ crop_spec ps s r.
Proof.
  intros ps s Pp Pos. unfold mn_crop. pose proof (zero_outside_total ps s) as Z. destruct (Qeqb_spec (Qsum (zero_outside ps s)) 0) as [Q|Q]; [exfalso; lra|].
  eexists. split; [reflexivity|]. apply (crop_scaled ps s _ Pp Pos).
  assert (G : forall l, Forall2 (fun w y => y == w * / pm ps s) l (map (fun p => p / Qsum (zero_outside ps s)) l)).
  { induction l as [|x l IH]; constructor; [|exact IH]. unfold Qdiv. rewrite Z. reflexivity. }
  apply G.
Qed.
Lemma mn_crop_zero : forall ps s, pm ps s == 0 -> mn_crop ps s = Err Unsatisfiability.
Proof. intros ps s Z. unfold mn_crop. destruct (Qeqb_spec (Qsum (zero_outside ps s)) 0) as [Q|Q]; [reflexivity|]. exfalso. apply Q. rewrite zero_outside_total. exact Z. Qed.

Lemma int_crop_pos : forall ps s, proper ps -> 0 < pm ps s -> exists r, int_crop ps s = Ok r /\ crop_spec ps s r.
Proof.
  intros ps s Pp Pos. unfold int_crop. destruct (normalized_pos (zero_outside ps s)) as (r & -> & S1 & Nr & F2).
  - apply zero_outside_nonneg, Pp.
  - rewrite zero_outside_total. exact Pos.
  - assert (C : crop_spec ps s r).
    { apply (crop_scaled ps s r Pp Pos). pose proof (zero_outside_total ps s) as Z. clear - F2 Z.
      set (t := Qsum (zero_outside ps s)) in *. clearbody t. induction F2 as [|w y z r E F2 IH]; constructor; [|exact IH]. rewrite E. unfold Qdiv. rewrite Z. reflexivity. }
    exists r. split; [|exact C]. unfold set_params. rewrite (proj1 C), Nat.eqb_refl. reflexivity.
Qed.
Lemma int_crop_zero : forall ps s, proper ps -> pm ps s == 0 -> int_crop ps s = Err Unsatisfiability.
Proof.
  intros ps s Pp Z. unfold int_crop. rewrite normalized_zero; [reflexivity|apply zero_outside_nonneg, Pp|]. rewrite zero_outside_total. exact Z.
Qed.

Lemma dd_p_ok : forall D d s, ok_dist D d -> ok_event D s -> exists q, dd_p d s = Ok q /\ q == pm (d_params d) s.
Proof.
  intros D d s (E & Len & Pp) Os. destruct (mn_p_mass (d_params d) s) as (q & A & B & C).
  - intros v I. rewrite Len. unfold ok_event in Os. rewrite Forall_forall in Os. auto.
  - exists q. split; [|exact C]. unfold dd_p. destruct (d_dom d); assumption.
Qed.

Lemma dd_merge_ok : forall D ds ws, ds <> [] -> length ds = length ws -> Forall (ok_dist D) ds -> Forall (fun w => 0 <= w) ws -> Qsum ws == 1 ->
  exists d', dd_merge ds ws = Ok d' /\ ok_dist D d' /\ forall s, pm (d_params d') s == Qsum (map (fun dw => snd dw * pm (d_params (fst dw)) s) (combine ds ws)).
Proof.
  intros D ds ws Ne Len Fo Fw S1. destruct ds as [|d0 ds0]; [contradiction|]. assert (Ed : d_dom d0 = D) by (apply (Forall_inv Fo)).
  unfold dd_merge. rewrite Ed. set (ds := d0 :: ds0) in *. clearbody ds. set (n := n_values D) in *.
  assert (Fp : Forall (fun d => length d = length (seq 0 n) /\ proper d) (map d_params ds)).
  { apply Forall_forall. intros p I. apply in_map_iff in I. destruct I as (d & <- & I). rewrite Forall_forall in Fo. destruct (Fo d I) as (_ & A & B). rewrite seq_length. auto. }
  destruct (merge_total nat (seq 0 n) (map d_params ds) ws) as (r & Er); try assumption.
  { intro H. apply map_eq_nil in H. contradiction. }
  { rewrite map_length. exact Len. }
  rewrite seq_length in Er. rewrite Er. cbn [bind]. exists (DDist D r). split; [reflexivity|].
  assert (Nn : seq 0 n <> []).
  { intro H. apply (f_equal (@length nat)) in H. rewrite seq_length in H. cbn in H. destruct ds as [|d ds']; [contradiction|]. apply Forall_inv in Fo.
    destruct Fo as (_ & A & _ & B). fold n in A. rewrite H in A. apply length_zero_iff_nil in A. rewrite A in B. cbn in B. lra. }
  destruct (merge_spec nat (seq 0 n) (map d_params ds) ws r Nn) as (A & B & C & _ & M); try assumption.
  { rewrite map_length. exact Len. }
  { rewrite seq_length. exact Er. }
  rewrite seq_length in A. split; [split; [reflexivity|]; split; [exact A|]; split; [exact B|rewrite C; exact S1]|].
  intro s. unfold pm at 1. cbn [d_params]. rewrite A, M. unfold wmix. clear - Fo Len.
  revert ws Len. induction Fo as [|d ds Od Fo IH]; intros [|w ws] Len; cbn [map combine Qsum fst snd]; try reflexivity.
  rewrite IH by (cbn in Len; lia). apply Qplus_comp; [|reflexivity]. destruct Od as (_ & L & _). unfold pm. rewrite L. reflexivity.
Qed.

Definition discrete_measured (doms : list dom) : @measured discrete (dfull doms).
Proof.
  refine (@Measured discrete (dfull doms)
    (fun v d => ok_dist (domain doms v) d) (fun v s => ok_event (domain doms v) s) (fun d s => pm (d_params d) s)
    _ _ _ _ _ _ _ _ _ _ _); cbn.
  - intro v. apply Forall_forall. intros x I. apply in_seq in I. lia.
  - intros v a b A B. apply Forall_forall. intros x I. apply filter_In in I. unfold ok_event in A. rewrite Forall_forall in A. apply A, I.
  - intros v d s. apply dd_p_ok.
  - intros v d s (_ & _ & Pp) _. apply pm_nonneg, Pp.
  - intros v d (_ & Len & Pp). apply pm_full; assumption.
  - intros v d a b (_ & _ & Pp) _ _. apply pm_le, Pp.
  - intros v d a b _ _ _. apply pm_ext. intros x _. rewrite !nmem_inter. apply andb_comm.
  - intros v d a b c _ _ _ _. apply pm_ext. intros x _. transitivity (nmem x a && nmem x b && nmem x c).
    + etransitivity; [apply nmem_inter|]. rewrite nmem_inter. reflexivity.
    + symmetry. etransitivity; [apply nmem_inter|]. rewrite nmem_inter. apply andb_assoc.
  - intros v d a b _ _ _. apply pm_ext. intros x _. rewrite !nmem_inter. destruct (nmem x a), (nmem x b); reflexivity.
  - intros v d a b _ _ _ H. unfold pm. rewrite (mass_ext _ _ _ _ (fun _ => false)); [apply mass_empty|]. intros x _. rewrite nmem_inter.
    destruct (nmem x a) eqn:A; [|reflexivity]. rewrite forallb_forall in H. unfold nmem in A. apply existsb_exists in A. destruct A as (y & I & E).
    apply Nat.eqb_eq in E. subst y. specialize (H x I). destruct (nmem x b); [discriminate|reflexivity].
  - intros v d a b (_ & _ & Pp) _ _. apply pm_sure, Pp.
Defined.

Definition discrete_lawful (doms : list dom) : @lawful discrete (dfull doms).
Proof.
  refine (@Lawful discrete (dfull doms) (discrete_measured doms) _ _ _ _ _); cbn.
  - intros v d s. apply dd_p_ok.
  - intros v d s. apply dd_p_ok.
  - intros v d s (E & Len & Pp) _ Pos. assert (exists r, match d_dom d with SymDom _ => mn_crop (d_params d) s | IntDom _ _ => int_crop (d_params d) s end = Ok r /\ crop_spec (d_params d) s r) as (r & Er & C1 & C2 & C3).
    { destruct (d_dom d); [apply mn_crop_pos|apply int_crop_pos]; assumption. }
    exists (DDist (d_dom d) r). unfold dd_crop. rewrite Er. split; [reflexivity|]. split; [split; [exact E|]; split; [cbn; congruence|exact C2]|]. intros t _. apply C3.
  - intros v d s (E & Len & Pp) _ Z. unfold dd_crop. destruct (d_dom d); [rewrite mn_crop_zero by exact Z|rewrite int_crop_zero by assumption]; reflexivity.
  - intros v ds ws Ne Len Fo Fw S1. destruct (dd_merge_ok (domain doms v) ds ws Ne Len Fo Fw S1) as (d' & A & B & C). exists d'. split; [exact A|]. split; [exact B|]. intros s _. apply C.
Defined.
