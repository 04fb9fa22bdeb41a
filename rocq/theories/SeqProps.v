(** Property C57: sequential trees. *)
Require Import QArith Lqa ZArith String List Arith Bool Lia Permutation DecimalString Decimal DecimalNat DecimalFacts.
Require Import Verif.Base Verif.NumBase Verif.UtilModel Verif.TreeModel Verif.SeqModel Verif.TreeSpec Verif.TreeDiscrete Verif.TreePosterior Verif.TreeExample.
Import ListNotations.
Open Scope Q_scope.

(** ** Specification *)

(** The number of times a row of leaf [i] is followed, in the same sequence, by a
    row of leaf [j]; the number of consecutive rows. *)
Definition follows {R} (encode : R -> nat) (i j : nat) (s : list R) : nat :=
  length (filter (fun t => match nth_error s t, nth_error s (S t) with
                           | Some a, Some b => (encode a =? i)%nat && (encode b =? j)%nat
                           | _, _ => false end) (seq 0 (length s))).
Definition all_follow {R} (encode : R -> nat) (sequences : list (list R)) (i j : nat) : nat :=
  list_sum (map (follows encode i j) sequences).
Definition n_consecutive {R} (sequences : list (list R)) : nat := list_sum (map (fun s => length s - 1)%nat sequences).
Definition Qof (n : nat) : Q := inject_Z (Z.of_nat n).

(** [T] is [C] with every leaf prior multiplied with the weight which [d] has at
    the position of the leaf in the template [J], scaled to sum 1. *)
Definition weighted_by {F : family} (J C : @jpt F) (d : list Q) (T : @jpt F) : Prop :=
  innernodes T = innernodes C /\ root T = root C /\ n_vars T = n_vars C /\
  exists ws, Forall2 (fun (l : @leaf F) w => exists p, nth_error (map l_idx (leaves J)) p = Some (l_idx l) /\ nth_error d p = Some w) (leaves C) ws /\
    let mass := Qsum (map (fun lw => l_prior (fst lw) * snd lw) (combine (leaves C) ws)) in
    ~ mass == 0 /\
    Forall2 (fun lw (l' : @leaf F) => l_idx l' = l_idx (fst lw) /\ l_dists l' = l_dists (fst lw) /\ l_prior l' == l_prior (fst lw) * snd lw / mass) (combine (leaves C) ws) (leaves T).

(** Ascending leaf numbers (insertion order of the dictionary). *)
Fixpoint ascending (l : list nat) : Prop :=
  match l with a :: ((b :: _) as l') => (a < b)%nat /\ ascending l' | _ => True end.

(** ** Transition model *)

Lemma windows_length : forall l, length (windows l) = (length l - 1)%nat.
Proof. induction l as [|a [|b l] IH]; [reflexivity|reflexivity|]. cbn [windows length] in *. rewrite IH. lia. Qed.
Lemma filter_ext_len : forall {A} (f g : A -> bool) l, (forall a, In a l -> f a = g a) -> length (filter f l) = length (filter g l).
Proof. intros A f g l H. rewrite (filter_ext_in f g l H). reflexivity. Qed.
Lemma filter_map_len : forall {A B} (f : B -> bool) (g : A -> B) l, length (filter f (map g l)) = length (filter (fun a => f (g a)) l).
Proof. induction l as [|a l IH]; [reflexivity|]. cbn. destruct (f (g a)); cbn; rewrite IH; reflexivity. Qed.
Lemma windows_count : forall {R} (encode : R -> nat) i j s, pair_count (windows (map encode s)) i j = follows encode i j s.
Proof.
  intros R encode i j. induction s as [|a [|b s] IH]; [reflexivity|reflexivity|].
  change (windows (map encode (a :: b :: s))) with ((encode a, encode b) :: windows (map encode (b :: s))).
  unfold pair_count, follows in *. remember (windows (map encode (b :: s))) as ws eqn:Ew. clear Ew.
  change (length (a :: b :: s)) with (S (length (b :: s))). rewrite <- cons_seq. cbn [filter nth_error fst snd].
  rewrite <- seq_shift. destruct ((encode a =? i)%nat && (encode b =? j)%nat); cbn [length]; rewrite filter_map_len, IH; reflexivity.
Qed.
Lemma pair_count_app : forall d e i j, pair_count (d ++ e) i j = (pair_count d i j + pair_count e i j)%nat.
Proof. intros. unfold pair_count. rewrite filter_app, app_length. reflexivity. Qed.
Lemma data_spec : forall {R} (encode : R -> nat) seqs ts,
  mapM (fun s => transitions (map encode s)) seqs = Ok ts ->
  Forall (fun s => (2 <= length s)%nat) seqs /\
  length (concat ts) = n_consecutive seqs /\ forall i j, pair_count (concat ts) i j = all_follow encode seqs i j.
Proof.
  intros R encode. induction seqs as [|s seqs IH]; intros ts E.
  - injection E as <-. repeat constructor.
  - rewrite mapM_cons in E. destruct (transitions (map encode s)) as [w|x] eqn:Ew; [|discriminate]. cbn [bind] in E.
    destruct (mapM (fun s0 => transitions (map encode s0)) seqs) as [ts'|x] eqn:Et; [|discriminate]. cbn [bind] in E. injection E as <-.
    destruct (IH ts' eq_refl) as (L & N & P).
    assert (W : (2 <= length s)%nat /\ w = windows (map encode s)).
    { destruct s as [|a [|b s]]; try discriminate. cbn in Ew. injection Ew as <-. split; [cbn; lia|reflexivity]. }
    destruct W as [Ls ->]. split; [constructor; assumption|]. cbn [concat]. split.
    + rewrite app_length, N, windows_length, map_length. unfold n_consecutive. reflexivity.
    + intros i j. rewrite pair_count_app, P, windows_count. reflexivity.
Qed.
Lemma data_ok : forall {R} (encode : R -> nat) seqs, Forall (fun s => (2 <= length s)%nat) seqs ->
  exists ts, mapM (fun s => transitions (map encode s)) seqs = Ok ts.
Proof.
  intros R encode seqs. induction 1 as [|s seqs H _ [ts IH]]; [eexists; reflexivity|]. rewrite mapM_cons, IH.
  destruct s as [|a [|b s]]; cbn in H; try lia. eexists. reflexivity.
Qed.

Lemma Qof_plus : forall a b, Qof (a + b) == Qof a + Qof b.
Proof. intros. unfold Qof. rewrite Nat2Z.inj_add, inject_Z_plus. reflexivity. Qed.
Lemma Qof_pos : forall n, (0 < n)%nat -> 0 < Qof n.
Proof. intros n H. unfold Qof. change 0 with (inject_Z 0). rewrite <- Zlt_Qlt. lia. Qed.
Lemma Qof_le : forall m n, (m <= n)%nat -> Qof m <= Qof n.
Proof. intros. unfold Qof. rewrite <- Zle_Qle. lia. Qed.
Lemma Qsum_ext : forall {A} (f g : A -> Q) l, (forall a, In a l -> f a == g a) -> Qsum (map f l) == Qsum (map g l).
Proof. induction l as [|a l IH]; intro H; [reflexivity|]. cbn [map Qsum]. rewrite (H a), IH by (try (intros; apply H; right; assumption); left; reflexivity). reflexivity. Qed.
Lemma Qsum_divide : forall {A} (f : A -> Q) c l, ~ c == 0 -> Qsum (map (fun a => f a / c) l) == Qsum (map f l) / c.
Proof. induction l as [|a l IH]; intro H; cbn [map Qsum]; [field; exact H|]. rewrite IH by exact H. field. exact H. Qed.
Lemma Qsum_Qof : forall {A} (f : A -> nat) l, Qsum (map (fun a => Qof (f a)) l) == Qof (list_sum (map f l)).
Proof. induction l as [|a l IH]; [reflexivity|]. cbn [map Qsum]. rewrite IH. unfold list_sum. cbn [fold_right]. rewrite Qof_plus. reflexivity. Qed.

(** Each pair of [data] is counted in at most one cell, and in exactly one when
    both numbers are listed. *)
Lemma sum_count_row : forall data i js, NoDup js ->
  list_sum (map (fun j => pair_count data i j) js) = length (filter (fun ab => (fst ab =? i)%nat && existsb (Nat.eqb (snd ab)) js) data).
Proof.
  intros data i js. induction js as [|j js IH]; intro N.
  - unfold list_sum. cbn. induction data as [|ab d IHd]; [reflexivity|]. cbn. rewrite andb_false_r. exact IHd.
  - inversion N as [|? ? N1 N2]; subst. change (list_sum (map (fun j0 => pair_count data i j0) (j :: js))) with (pair_count data i j + list_sum (map (fun j0 => pair_count data i j0) js))%nat.
    rewrite (IH N2). unfold pair_count. clear IH N N2. induction data as [|[a b] d IHd]; [reflexivity|]. cbn [filter fst snd existsb].
    destruct (a =? i)%nat eqn:Ea; cbn [andb]; [|exact IHd]. destruct (Nat.eqb_spec b j) as [->|Eb].
    + assert (X : existsb (Nat.eqb j) js = false).
      { destruct (existsb (Nat.eqb j) js) eqn:X; [|reflexivity]. apply existsb_exists in X. destruct X as (x & I & X). apply Nat.eqb_eq in X. subst x. contradiction. }
      rewrite X. cbn [orb length]. cbn [existsb] in IHd. lia.
    + cbn [orb]. cbn [existsb] in IHd. destruct (existsb (Nat.eqb b) js); cbn [length]; lia.
Qed.
Lemma sum_count : forall data is js, NoDup is -> NoDup js ->
  list_sum (map (fun i => list_sum (map (fun j => pair_count data i j) js)) is) = length (filter (fun ab => existsb (Nat.eqb (fst ab)) is && existsb (Nat.eqb (snd ab)) js) data).
Proof.
  intros data is js Ni Nj. induction is as [|i is IH].
  - unfold list_sum. cbn. induction data as [|ab d IHd]; [reflexivity|]. cbn. exact IHd.
  - inversion Ni as [|? ? N1 N2]; subst.
    change (list_sum (map (fun i => list_sum (map (fun j => pair_count data i j) js)) (i :: is))) with (list_sum (map (fun j => pair_count data i j) js) + list_sum (map (fun i => list_sum (map (fun j => pair_count data i j) js)) is))%nat.
    rewrite (IH N2), (sum_count_row data i js Nj). clear IH Ni N2. induction data as [|[a b] d IHd]; [reflexivity|]. cbn [filter fst snd existsb].
    destruct (existsb (Nat.eqb b) js); rewrite ?andb_false_r, ?andb_true_r; [|exact IHd]. destruct (Nat.eqb_spec a i) as [->|Ea].
    + assert (X : existsb (Nat.eqb i) is = false).
      { destruct (existsb (Nat.eqb i) is) eqn:X; [|reflexivity]. apply existsb_exists in X. destruct X as (x & I & X). apply Nat.eqb_eq in X. subst x. contradiction. }
      rewrite X. cbn [orb length]. cbn [existsb] in IHd. lia.
    + cbn [orb]. cbn [existsb] in IHd. destruct (existsb (Nat.eqb a) is); cbn [length]; lia.
Qed.
Lemma filter_le : forall {A} (f : A -> bool) l, (length (filter f l) <= length l)%nat.
Proof. induction l as [|a l IH]; cbn; [lia|]. destruct (f a); cbn; lia. Qed.
Lemma filter_all : forall {A} (f : A -> bool) l, (forall a, In a l -> f a = true) -> length (filter f l) = length l.
Proof. induction l as [|a l IH]; intro H; [reflexivity|]. cbn. rewrite (H a) by (left; reflexivity). cbn. rewrite IH; [reflexivity|]. intros. apply H. right. assumption. Qed.
Lemma windows_in : forall l a b, In (a, b) (windows l) -> In a l /\ In b l.
Proof.
  induction l as [|x [|y l] IH]; intros a b I; cbn in I; try contradiction. destruct I as [E|I].
  - injection E as <- <-. split; cbn; tauto.
  - destruct (IH a b I) as [A B]. split; right; assumption.
Qed.
Lemma data_in : forall {R} (encode : R -> nat) seqs ts, mapM (fun s => transitions (map encode s)) seqs = Ok ts ->
  forall a b, In (a, b) (concat ts) -> exists s r r', In s seqs /\ In r s /\ In r' s /\ encode r = a /\ encode r' = b.
Proof.
  intros R encode. induction seqs as [|s seqs IH]; intros ts E a b I.
  - injection E as <-. contradiction.
  - rewrite mapM_cons in E. destruct (transitions (map encode s)) as [w|x] eqn:Ew; [|discriminate]. cbn [bind] in E.
    destruct (mapM (fun s0 => transitions (map encode s0)) seqs) as [ts'|x] eqn:Et; [|discriminate]. cbn [bind] in E. injection E as <-.
    cbn [concat] in I. apply in_app_or in I. destruct I as [I|I].
    + assert (W : w = windows (map encode s)) by (destruct s as [|? [|? ?]]; try discriminate; cbn in Ew; injection Ew as <-; reflexivity).
      subst w. apply windows_in in I. destruct I as [A B]. apply in_map_iff in A. apply in_map_iff in B. destruct A as (r & A1 & A2), B as (r' & B1 & B2).
      exists s, r, r'. repeat split; auto. left. reflexivity.
    + destruct (IH ts' eq_refl a b I) as (s0 & r & r' & A & K). exists s0, r, r'. split; [right; exact A|exact K].
Qed.

(** The transition model of every set of sequences: it exists exactly when there
    is a sequence and none has fewer than two rows; the entry of two leaves is the
    fraction of consecutive rows that lie in them, in order; and if every row is
    encoded to one of the leaves the entries sum to 1. *)
Theorem C57_transitions : forall R (encode : R -> nat) leaf_idx sequences, NoDup leaf_idx ->
  ((exists M, transition_model encode leaf_idx sequences = Ok M) <-> sequences <> [] /\ Forall (fun s => (2 <= length s)%nat) sequences) /\
  (forall M, transition_model encode leaf_idx sequences = Ok M ->
     length M = length leaf_idx /\ Forall (fun row => length row = length leaf_idx) M /\
     (forall p q i j, nth_error leaf_idx p = Some i -> nth_error leaf_idx q = Some j ->
        exists row x, nth_error M p = Some row /\ nth_error row q = Some x /\ x * Qof (n_consecutive sequences) == Qof (all_follow encode sequences i j)) /\
     Forall (Forall (fun x => 0 <= x)) M /\
     Qsum (map Qsum M) <= 1 /\
     ((forall s r, In s sequences -> In r s -> In (encode r) leaf_idx) -> Qsum (map Qsum M) == 1)).
Proof.
  intros R encode li seqs ND. split.
  - unfold transition_model, transition_data. split.
    + intros [M E]. destruct seqs as [|s seqs]; [discriminate|]. split; [discriminate|]. cbv beta iota in E.
      destruct (mapM (fun s0 => transitions (map encode s0)) (s :: seqs)) as [ts|x] eqn:Et; [|discriminate]. apply (data_spec encode _ _ Et).
    + intros [N H]. destruct (data_ok encode seqs H) as [ts E]. destruct seqs as [|s seqs]; [congruence|]. rewrite E. cbn [bind]. eexists. reflexivity.
  - intros M E. unfold transition_model, transition_data in E. destruct seqs as [|s0 seqs0] eqn:Es; [discriminate|]. rewrite <- Es in *.
    assert (Ns : seqs <> []) by (rewrite Es; discriminate). cbv beta iota in E.
    destruct (mapM (fun s => transitions (map encode s)) seqs) as [ts|x] eqn:Et; [|discriminate]. cbn [bind] in E.
    destruct (data_spec encode seqs ts Et) as (L & N & P). pose proof (data_in encode seqs ts Et) as Din. set (data := concat ts) in *. clearbody data. clear ts Et.
    assert (Np : (0 < length data)%nat).
    { rewrite N, Es. unfold n_consecutive. cbn [map]. rewrite Es in L. apply Forall_inv in L. unfold list_sum. cbn [fold_right]. lia. }
    fold (Qof (length data)) in E. assert (Qp := Qof_pos _ Np). injection E as E.
    assert (Ent : M = map (fun i => map (fun j => Qof (pair_count data i j) / Qof (length data)) li) li) by (symmetry; exact E). clear E.
    assert (Sum : Qsum (map Qsum M) == Qof (length (filter (fun ab => existsb (Nat.eqb (fst ab)) li && existsb (Nat.eqb (snd ab)) li) data)) / Qof (length data)).
    { rewrite Ent, map_map. rewrite <- (sum_count data li li ND ND).
      rewrite (Qsum_ext _ (fun i => Qof (list_sum (map (fun j => pair_count data i j) li)) / Qof (length data)) li).
      - rewrite Qsum_divide by lra. rewrite (Qsum_Qof (fun i => list_sum (map (fun j => pair_count data i j) li)) li). reflexivity.
      - intros i _. rewrite Qsum_divide by lra. rewrite (Qsum_Qof (fun j => pair_count data i j) li). reflexivity. }
    split; [rewrite Ent; apply map_length|]. split; [rewrite Ent; apply Forall_forall; intros row I; apply in_map_iff in I; destruct I as (i & <- & _); apply map_length|].
    split; [|split; [|split]].
    + intros p q i j Hp Hq. eexists _, _. split; [rewrite Ent; apply map_nth_error; exact Hp|]. split; [apply map_nth_error; exact Hq|].
      rewrite <- N, <- P. field. lra.
    + rewrite Ent. apply Forall_forall. intros row I. apply in_map_iff in I. destruct I as (i & <- & _). apply Forall_forall. intros x I. apply in_map_iff in I. destruct I as (j & <- & _).
      apply Qle_shift_div_l; [exact Qp|]. rewrite Qmult_0_l. change 0 with (Qof 0). apply Qof_le. lia.
    + rewrite Sum. apply Qle_shift_div_r; [exact Qp|]. rewrite Qmult_1_l. apply Qof_le, filter_le.
    + intro H. rewrite Sum, filter_all; [field; lra|]. intros [a b] I. destruct (Din a b I) as (s & r & r' & I1 & I2 & I3 & <- & <-). cbn [fst snd].
      apply andb_true_intro. split; apply existsb_exists; eexists; (split; [|apply Nat.eqb_refl]); eapply H; eassumption.
Qed.
Print Assumptions C57_transitions.
Example C57_transitions_example :
  match transition_model (fun x : nat => (x mod 2)%nat) [1; 0]%nat [[1; 2; 4; 3]; [5; 7]]%nat with
  | Ok M => Forall2 (Forall2 Qeq) M [[1 # 4; 1 # 4]; [1 # 4; 1 # 4]] | Err _ => False end.
Proof. vm_compute. repeat constructor. Qed.

(** Fitting a second time keeps the leaves of the first tree under the numbers the
    second one does not use. *)
Theorem C57_refit_refuted : forall L (old new : list (nat * L)) i l, lookup new i = None -> In (i, l) old -> In (i, l) (adopt_leaves old new).
Proof.
  intros L old new. revert old. induction new as [|[j m] new IH]; intros old i l N I; [exact I|]. unfold adopt_leaves. cbn [fold_left fst snd].
  cbn [lookup] in N. destruct (Nat.eqb_spec j i) as [|Ne]; [discriminate|]. apply (IH _ i l N). clear IH N.
  induction old as [|[k n] old IHo]; [contradiction|]. cbn [put_leaf]. destruct (Nat.eqb_spec j k) as [->|Nk].
  - destruct I as [E|I]; [injection E as -> _; congruence|right; exact I].
  - destruct I as [E|I]; [left; exact E|right; apply IHo, I].
Qed.
Print Assumptions C57_refit_refuted.

(** Every leaf of the new tree is adopted. *)
Theorem C57_refit_partial : forall L (old new : list (nat * L)) i l, NoDup (map fst new) -> In (i, l) new -> lookup (adopt_leaves old new) i = Some l.
Proof.
  assert (P : forall L (d : list (nat * L)) i l j, lookup (put_leaf d i l) j = if Nat.eqb i j then Some l else lookup d j).
  { intros L d i l j. induction d as [|[k m] d IH]; cbn [put_leaf lookup]; [reflexivity|]. destruct (Nat.eqb_spec i k) as [->|N]; cbn [lookup]; [destruct (Nat.eqb k j); reflexivity|].
    rewrite IH. destruct (Nat.eqb_spec k j) as [->|]; [|reflexivity]. destruct (Nat.eqb_spec i j); [congruence|reflexivity]. }
  assert (K : forall L (new old : list (nat * L)) i, ~ In i (map fst new) -> lookup (adopt_leaves old new) i = lookup old i).
  { intros L new. induction new as [|[j m] new IH]; intros old i N; [reflexivity|]. unfold adopt_leaves. cbn [fold_left fst snd]. fold (adopt_leaves (put_leaf old j m) new). cbn [map fst] in N. rewrite IH by (intro H; apply N; right; exact H). rewrite P. destruct (Nat.eqb_spec j i) as [->|]; [|reflexivity]. exfalso. apply N. left. reflexivity. }
  intros L old new. revert old. induction new as [|[j m] new IH]; intros old i l N I; [destruct I|]. cbn [map fst] in N. apply NoDup_cons_iff in N. destruct N as (N1 & N2). unfold adopt_leaves. cbn [fold_left fst snd]. fold (adopt_leaves (put_leaf old j m) new).
  destruct I as [E|I]; [injection E as -> ->; rewrite K by exact N1; rewrite P, Nat.eqb_refl; reflexivity|]. apply (IH _ i l N2 I).
Qed.
Print Assumptions C57_refit_partial.

(** ** Names *)

Lemma to_uint_nonnil : forall n, Nat.to_uint n <> Nil.
Proof. intros n E. pose proof (Unsigned.of_to n) as O. pose proof (Unsigned.to_of (Nat.to_uint n)) as T. rewrite O in T. rewrite E in T. cbn in T. discriminate. Qed.
Lemma to_uint_norm : forall n, unorm (Nat.to_uint n) = Nat.to_uint n.
Proof. intro n. rewrite <- (Unsigned.to_of (Nat.to_uint n)), Unsigned.of_to. reflexivity. Qed.
Lemma to_uint_is : forall n m, Nat.to_uint n = Nat.to_uint m -> n = m.
Proof. intros n m E. rewrite <- (Unsigned.of_to n), <- (Unsigned.of_to m), E. reflexivity. Qed.
Lemma leading_zero : forall n u, Nat.to_uint n = D0 u -> n = 0%nat.
Proof.
  intros n u E. pose proof (to_uint_norm n) as H. rewrite E in H. 
  unfold unorm in H. cbn [nzhead] in H. destruct (nzhead u) as [|v|v|v|v|v|v|v|v|v|v] eqn:Z; try discriminate.
  - apply to_uint_is. rewrite E, <- H. reflexivity.
  - exfalso. exact (nzhead_nonzero u v Z).
Qed.

Ltac digits n :=
  pose proof (to_uint_nonnil n); unfold step_name; destruct (Nat.to_uint n) as [|u|u|u|u|u|u|u|u|u|u] eqn:E; [congruence|..].
Lemma first_step : forall n, str_leb (step_name 0) (step_name n) = true.
Proof. intro n. digits n; vm_compute; reflexivity. Qed.
Lemma second_step : forall n, n <> 0%nat -> str_leb (step_name 1) (step_name n) = true.
Proof. intros n Z. digits n; try (vm_compute; reflexivity). apply leading_zero in E. contradiction. Qed.
Lemma third_step : forall n, n <> 0%nat -> n <> 1%nat -> str_leb (step_name 10) (step_name n) = true.
Proof.
  intros n Z N. digits n; try (vm_compute; reflexivity); [apply leading_zero in E; contradiction|].
  destruct u; try (vm_compute; reflexivity). exfalso. apply N, to_uint_is. rewrite E. reflexivity.
Qed.
Lemma step_inj : forall n m, step_name n = step_name m -> n = m.
Proof.
  intros n m E. unfold step_name in E. cbn [append] in E. injection E as E. apply to_uint_is.
  pose proof (f_equal NilEmpty.uint_of_string E) as K. rewrite !NilEmpty.usu in K. injection K as K. exact K.
Qed.

Section Sort.
  Context {A : Type}.
  Implicit Types l : list (string * A).
  Lemma insert_perm : forall x l, Permutation (insert_named x l) (x :: l).
  Proof. induction l as [|y l IH]; cbn; [reflexivity|]. destruct (str_leb (fst x) (fst y)); [reflexivity|]. rewrite IH. apply perm_swap. Qed.
  Lemma sort_perm : forall l, Permutation (sort_named l) l.
  Proof. induction l as [|x l IH]; [reflexivity|]. unfold sort_named in *. cbn [fold_right]. rewrite insert_perm, IH. reflexivity. Qed.
  Fixpoint in_order l : Prop :=
    match l with [] => True | x :: l' => match l' with [] => True | y :: _ => str_leb (fst x) (fst y) = true end /\ in_order l' end.
  Lemma sort_id : forall l, in_order l -> sort_named l = l.
  Proof.
    induction l as [|x l IH]; intro S; [reflexivity|]. destruct S as [H S]. unfold sort_named in *. cbn [fold_right]. rewrite IH by exact S.
    destruct l as [|y l]; [reflexivity|]. cbn [insert_named]. rewrite H. reflexivity.
  Qed.
End Sort.

Lemma str_leb_refl : forall s, str_leb s s = true.
Proof. induction s as [|c s IH]; [reflexivity|]. cbn [str_leb]. rewrite Nat.ltb_irrefl. exact IH. Qed.
Lemma ascii_inj : forall a b, Ascii.nat_of_ascii a = Ascii.nat_of_ascii b -> a = b.
Proof. intros a b E. rewrite <- (Ascii.ascii_nat_embedding a), E. apply Ascii.ascii_nat_embedding. Qed.
Lemma str_leb_antisym : forall a b, str_leb a b = true -> str_leb b a = true -> a = b.
Proof.
  induction a as [|c a IH]; intros [|d b] H K; try reflexivity; try discriminate. cbn [str_leb] in H, K.
  destruct (Nat.ltb_spec (Ascii.nat_of_ascii c) (Ascii.nat_of_ascii d)) as [L|L]; destruct (Nat.ltb_spec (Ascii.nat_of_ascii d) (Ascii.nat_of_ascii c)) as [M|M]; try discriminate; try lia.
  assert (E : Ascii.nat_of_ascii c = Ascii.nat_of_ascii d) by lia. apply ascii_inj in E. subst d. f_equal. apply IH; assumption.
Qed.
Lemma str_leb_total : forall a b, str_leb a b = false -> str_leb b a = true.
Proof.
  induction a as [|c a IH]; intros [|d b] H; try reflexivity; try discriminate. cbn [str_leb] in *.
  destruct (Nat.ltb_spec (Ascii.nat_of_ascii c) (Ascii.nat_of_ascii d)) as [L|L]; [discriminate|]. destruct (Nat.ltb_spec (Ascii.nat_of_ascii d) (Ascii.nat_of_ascii c)) as [M|M]; [reflexivity|]. apply IH, H.
Qed.
Lemma str_leb_trans : forall a b c, str_leb a b = true -> str_leb b c = true -> str_leb a c = true.
Proof.
  induction a as [|x a IH]; intros [|y b] [|z c] H K; try reflexivity; try discriminate. cbn [str_leb] in *.
  destruct (Nat.ltb_spec (Ascii.nat_of_ascii x) (Ascii.nat_of_ascii y)), (Nat.ltb_spec (Ascii.nat_of_ascii y) (Ascii.nat_of_ascii z));
    destruct (Nat.ltb_spec (Ascii.nat_of_ascii x) (Ascii.nat_of_ascii z)); try reflexivity; try lia;
    destruct (Nat.ltb_spec (Ascii.nat_of_ascii y) (Ascii.nat_of_ascii x)); try discriminate; try lia;
    destruct (Nat.ltb_spec (Ascii.nat_of_ascii z) (Ascii.nat_of_ascii y)); try discriminate; try lia;
    destruct (Nat.ltb_spec (Ascii.nat_of_ascii z) (Ascii.nat_of_ascii x)); try discriminate; try lia.
  eapply IH; eassumption.
Qed.

Lemma insert_sorted : forall A (x : string * A) l, in_order l -> in_order (insert_named x l).
Proof.
  induction l as [|y l IH]; intro O; [repeat split|]. cbn [insert_named]. destruct (str_leb (fst x) (fst y)) eqn:E; [split; assumption|].
  destruct O as [H O]. specialize (IH O). split; [|exact IH]. apply str_leb_total in E. destruct l as [|z l]; cbn [insert_named]; [exact E|]. destruct (str_leb (fst x) (fst z)); assumption.
Qed.
Lemma sort_sorted : forall A (l : list (string * A)), in_order (sort_named l).
Proof. induction l as [|x l IH]; [exact I|]. unfold sort_named. cbn [fold_right]. apply insert_sorted, IH. Qed.
(** The first element of a sorted permutation is the least one. *)
Lemma in_order_head : forall A (x : string * A) l, in_order (x :: l) -> forall y, In y l -> str_leb (fst x) (fst y) = true.
Proof.
  intros A x l. revert x. induction l as [|z l IH]; intros x [H O] y I; [contradiction|]. destruct I as [E|I]; subst; [exact H|]. apply (str_leb_trans _ (fst z)); [exact H|]. apply IH; assumption.
Qed.
Lemma least_first : forall A (m : string * A) l r, Permutation l (m :: r) -> in_order l -> NoDup (map fst l) -> (forall y, In y r -> str_leb (fst m) (fst y) = true) ->
  exists l', l = m :: l' /\ Permutation l' r /\ in_order l'.
Proof.
  intros A m [|x l] r P O ND H; [apply Permutation_nil in P; discriminate|].
  assert (x = m).
  { assert (Ix : In x (m :: r)) by (apply (Permutation_in _ P); left; reflexivity). destruct Ix as [->|Ix]; [reflexivity|].
    assert (Im : In m (x :: l)) by (apply (Permutation_in _ (Permutation_sym P)); left; reflexivity). destruct Im as [->|Im]; [reflexivity|].
    pose proof (str_leb_antisym _ _ (in_order_head A x l O m Im) (H x Ix)) as E. cbn [map] in ND. inversion ND as [|? ? N1 N2]; subst. exfalso. apply N1. rewrite E. apply in_map, Im. }
  subst x. exists l. split; [reflexivity|]. split; [apply Permutation_cons_inv in P; exact P|apply O].
Qed.

(** ** Marginals *)

Lemma lookup_combine : forall A ks (d : list A) i x, lookup (combine ks d) i = Some x -> exists p, nth_error ks p = Some i /\ nth_error d p = Some x.
Proof.
  induction ks as [|k ks IH]; intros [|y d] i x E; try discriminate. cbn [combine lookup] in E. destruct (Nat.eqb_spec k i) as [->|N].
  - exists 0%nat. split; [reflexivity|exact E].
  - destruct (IH d i x E) as (p & P). exists (S p). exact P.
Qed.
Lemma sort_nat_id : forall l, ascending l -> sort_nat l = l.
Proof.
  induction l as [|a l IH]; intro H; [reflexivity|]. unfold sort_nat in *. cbn [fold_right]. destruct l as [|b l]; [reflexivity|]. destruct H as [L H]. rewrite IH by exact H.
  cbn [insert_nat]. destruct (Nat.leb_spec a b); [reflexivity|lia].
Qed.
Lemma F2_left : forall A B (P : A -> B -> Prop) l m, Forall2 P l m -> length l = length m.
Proof. induction 1; cbn; congruence. Qed.

Lemma nth_combine : forall A B (l : list A) (m : list B) i a b, nth_error l i = Some a -> nth_error m i = Some b -> nth_error (combine l m) i = Some (a, b).
Proof. induction l as [|x l IH]; intros [|y m] [|i] a b H K; try discriminate; cbn in *; [congruence|]. apply IH; assumption. Qed.

Section M.
  Context {F : family}.
  Implicit Types J C T : @jpt F.
  Lemma multiply_weighted : forall J C d T, multiply_by_leaf_prior C (combine (map l_idx (leaves J)) d) = Ok T -> weighted_by J C d T.
  Proof.
    intros J C d T E. unfold multiply_by_leaf_prior in E.
    match type of E with bind ?m _ = _ => destruct m as [ls|x] eqn:Em; [|discriminate] end. cbn [bind] in E. unfold normalize in E. cbn [leaves with_nodes innernodes] in E.
    destruct (Qeqb_spec (Qsum (map l_prior ls)) 0) as [Z|Z]; [discriminate|]. injection E as <-.
    split; [reflexivity|]. split; [reflexivity|]. split; [reflexivity|]. cbn [leaves with_nodes].
    assert (K : exists ws, Forall2 (fun (l : @leaf F) w => exists p, nth_error (map l_idx (leaves J)) p = Some (l_idx l) /\ nth_error d p = Some w) (leaves C) ws /\ ls = map (fun lw => with_prior (fst lw) (l_prior (fst lw) * snd lw)) (combine (leaves C) ws)).
    { clear Z. revert ls Em. induction (leaves C) as [|l rest IH]; intros ls Em; [injection Em as <-; exists []; repeat constructor|].
      rewrite mapM_cons in Em. destruct (lookup (combine (map l_idx (leaves J)) d) (l_idx l)) as [w|] eqn:El; [|discriminate]. cbn [bind] in Em.
      match type of Em with bind ?m _ = _ => destruct m as [ls'|x] eqn:Em'; [|discriminate] end. cbn [bind] in Em. injection Em as <-.
      destruct (IH ls' eq_refl) as (ws & Fw & ->). exists (w :: ws). split; [constructor; [apply lookup_combine; exact El|exact Fw]|reflexivity]. }
    destruct K as (ws & Fw & ->). exists ws. split; [exact Fw|]. cbv zeta. rewrite map_map in Z. cbn [l_prior with_prior] in Z. split; [exact Z|].
    rewrite !map_map. cbn [l_prior with_prior]. set (mass := Qsum _) in *. clearbody mass. clear Fw Em. induction (combine (leaves C) ws) as [|[l w] lws IH]; cbn [map]; [constructor|]. constructor; [|exact IH].
    cbn. repeat split.
  Qed.

  Lemma condition_all_spec : forall J es Cs, condition_all J es = Ok Cs -> Forall2 (fun e C => conditional_jpt J e true = Ok (Some C)) es Cs.
  Proof.
    intros J. induction es as [|e es IH]; intros Cs E; [injection E as <-; constructor|]. cbn [condition_all] in E.
    destruct (conditional_jpt J e true) as [[C|]|x] eqn:Ec; try discriminate. cbn [bind] in E. destruct (condition_all J es) as [cs|x] eqn:Es; [|discriminate]. cbn [bind] in E. injection E as <-.
    constructor; [exact Ec|apply IH; reflexivity].
  Qed.

  Lemma distribution_spec : forall names ms ds, mapM (fun nd : string * list Q => do d <- normalized (snd nd) false false (1 # 10); Ok (fst nd, d)) (combine names ms) = Ok ds -> length names = length ms ->
    map fst ds = names /\ Forall2 (fun m d => normalized m false false (1 # 10) = Ok (snd d)) ms ds.
  Proof.
    induction names as [|n names IH]; intros [|m ms] ds E L; try discriminate.
    - injection E as <-. split; [reflexivity|constructor].
    - cbn [combine] in E. rewrite mapM_cons in E. cbn [fst snd] in E. destruct (normalized m false false (1 # 10)) as [d|x] eqn:En; [|discriminate]. cbn [bind] in E.
      match type of E with bind ?mm _ = _ => destruct mm as [ds'|x] eqn:Em; [|discriminate] end. cbn [bind] in E. injection E as <-.
      destruct (IH ms ds' Em (f_equal Nat.pred L)) as [A B]. split; [cbn; rewrite A; reflexivity|constructor; [exact En|exact B]].
  Qed.

  Lemma adjust_spec : forall J Cs ds Ts, adjust J ds Cs = Ok Ts -> length ds = length Cs -> ascending (map l_idx (leaves J)) ->
    length Ts = length Cs /\ forall i C n, nth_error Cs i = Some C -> nth_error ds i = Some n -> exists T, nth_error Ts i = Some T /\ weighted_by J C (snd n) T.
  Proof.
    intros J. induction Cs as [|C Cs IH]; intros [|[nm d] ds] Ts E L Asc; try discriminate.
    - injection E as <-. split; [reflexivity|]. intros [|i]; discriminate.
    - cbn [adjust] in E. rewrite (sort_nat_id _ Asc) in E. destruct (multiply_by_leaf_prior C (combine (map l_idx (leaves J)) d)) as [T|x] eqn:Em; [|discriminate]. cbn [bind] in E.
      destruct (adjust J ds Cs) as [Ts'|x] eqn:Ea; [|discriminate]. cbn [bind] in E. injection E as <-.
      destruct (IH ds Ts' Ea (f_equal Nat.pred L) Asc) as [A B]. split; [cbn; congruence|].
      intros [|i] C' n HC Hn; cbn in HC, Hn; [|apply (B i C' n HC Hn)]. injection HC as <-. injection Hn as <-. exists T. split; [reflexivity|apply multiply_weighted; exact Em].
  Qed.

  Lemma F2_nth : forall A B (P : A -> B -> Prop) l m, Forall2 P l m -> forall i a, nth_error l i = Some a -> exists b, nth_error m i = Some b /\ P a b.
  Proof. induction 1; intros [|i] c E; try discriminate; cbn in E |- *; [injection E as <-; eauto|eauto]. Qed.

  Lemma names_in_order : forall (ds : list (string * list Q)) n, map fst ds = map step_name (seq 0 n) -> (n <= 10)%nat -> in_order ds.
  Proof.
    assert (G : forall (ds : list (string * list Q)) k n, map fst ds = map step_name (seq k n) -> (k + n <= 10)%nat -> in_order ds).
    { induction ds as [|x ds IH]; intros k n E L; [exact I|]. destruct n as [|n]; [discriminate|]. cbn [seq map] in E. injection E as Ex E. split; [|apply (IH (S k) n E); lia].
      destruct ds as [|y ds]; [exact I|]. destruct n as [|n]; [discriminate|]. cbn [seq map] in E. injection E as Ey _. rewrite Ex, Ey.
      assert (K : (k < 9)%nat) by lia. clear -K. do 9 (destruct k as [|k]; [vm_compute; reflexivity|]). lia. }
    intros ds n E L. apply (G ds 0%nat n E). lia.
  Qed.

  (** The factor graph: a variable for every step, a transition factor for every two
      consecutive steps in this direction and for no others, and a prior factor which gives
      every leaf of the template its prior in the conditioned tree, and 0 to the leaves
      which the evidence removes. *)
  Theorem C57_grounding : forall J es g Cs, ground J es = Ok (g, Cs) ->
    g_vars g = map step_name (seq 0 (length es)) /\ length Cs = length es /\ length (g_priors g) = length es /\
    (forall a b, In (a, b) (g_links g) <-> exists t, (S t < length es)%nat /\ a = step_name t /\ b = step_name (S t)) /\
    length (g_links g) = (length es - 1)%nat /\
    forall t e, nth_error es t = Some e -> exists C v, conditional_jpt J e true = Ok (Some C) /\ nth_error Cs t = Some C /\ nth_error (g_priors g) t = Some (step_name t, v) /\
      Forall2 (fun l x => (exists l', In l' (leaves C) /\ l_idx l' = l_idx l /\ x = l_prior l') \/ ((forall l', In l' (leaves C) -> l_idx l' <> l_idx l) /\ x == 0)) (leaves J) v.
  Proof.
    intros J es g Cs E. unfold ground in E. destruct (condition_all J es) as [cs|x] eqn:Ec; [|discriminate]. cbn [bind] in E. injection E as <- <-. cbn [g_vars g_links g_priors].
    pose proof (condition_all_spec J es cs Ec) as Fc. pose proof (F2_left _ _ _ _ _ Fc) as Lc.
    split; [reflexivity|]. split; [congruence|]. split; [rewrite combine_length, !map_length, seq_length, <- Lc; apply Nat.min_id|]. split.
    { intros a b. rewrite in_map_iff. split.
      - intros (t & Et & It). injection Et as <- <-. apply in_seq in It. exists t. split; [lia|]. split; reflexivity.
      - intros (t & Lt & -> & ->). exists t. split; [reflexivity|]. apply in_seq. lia. }
    split; [rewrite map_length, seq_length; reflexivity|]. intros t e He. destruct (F2_nth _ _ _ _ _ Fc t e He) as (C & HC & Hc). exists C, (prior_vector J C). split; [exact Hc|]. split; [exact HC|]. split.
    - apply nth_combine; [|apply map_nth_error; exact HC]. apply map_nth_error. rewrite (nth_error_nth' _ 0%nat) by (rewrite seq_length; apply nth_error_Some; congruence). rewrite seq_nth by (apply nth_error_Some; congruence). reflexivity.
    - unfold prior_vector. clear - J. induction (leaves J) as [|l ls IH]; cbn [map]; constructor; [|exact IH]. destruct (get_leaf C (l_idx l)) as [l'|] eqn:G.
      + left. unfold get_leaf in G. apply find_some in G. destruct G as (I & Ei). apply Nat.eqb_eq in Ei. exists l'. split; [exact I|]. split; [exact Ei|reflexivity].
      + right. split; [|reflexivity]. intros l' I Ei. unfold get_leaf in G. pose proof (find_none _ _ G l' I) as N. cbn beta in N. rewrite Ei, Nat.eqb_refl in N. discriminate N.
  Qed.

  (** Up to ten time steps, with leaf numbers in ascending order: for every
      template, evidence and outcome of belief propagation the [i]-th tree is the
      template conditioned on the [i]-th evidence with each leaf prior multiplied by
      the [i]-th marginal (as [normalized] with zero filling returns it). *)
  Theorem C57_alignment_partial : forall J lbp es Ts, independent_marginals lbp J es = Ok Ts ->
    (forall g, length (lbp g) = length (g_vars g)) -> (length es <= 10)%nat -> ascending (map l_idx (leaves J)) ->
    exists g Cs, ground J es = Ok (g, Cs) /\ length Ts = length es /\
    forall i e, nth_error es i = Some e -> exists C d nd T,
      conditional_jpt J e true = Ok (Some C) /\ nth_error (g_priors g) i = Some (step_name i, prior_vector J C) /\
      nth_error (lbp g) i = Some d /\ normalized d false false (1 # 10) = Ok nd /\
      nth_error Ts i = Some T /\ weighted_by J C nd T.
  Proof.
    intros J lbp es Ts E Lb Le Asc. unfold independent_marginals in E. destruct (ground J es) as [[g Cs]|x] eqn:Eg; [|discriminate]. cbn [bind fst snd] in E.
    exists g, Cs. split; [reflexivity|]. unfold ground in Eg. destruct (condition_all J es) as [cs|x] eqn:Ec; [|discriminate]. cbn [bind] in Eg. injection Eg as Eg <-.
    pose proof (condition_all_spec J es cs Ec) as Fc. pose proof (F2_left _ _ _ _ _ Fc) as Lc.
    assert (Vars : g_vars g = map step_name (seq 0 (length es))) by (rewrite <- Eg; reflexivity).
    assert (Prs : g_priors g = combine (map step_name (seq 0 (length es))) (map (prior_vector J) cs)) by (rewrite <- Eg; reflexivity). clear Eg.
    unfold leaf_distribution in E. match type of E with bind ?m _ = _ => destruct m as [ds|x] eqn:Ed; [|discriminate] end. cbn [bind] in E.
    destruct (distribution_spec _ _ _ Ed (eq_sym (Lb g))) as [Dn Df]. rewrite Vars in Dn.
    assert (Lds : length ds = length cs). { rewrite <- Lc, <- (map_length fst ds), Dn, map_length, seq_length. reflexivity. }
    rewrite (sort_id ds (names_in_order ds _ Dn Le)) in E. destruct (adjust_spec J cs ds Ts E Lds Asc) as [LT A]. split; [congruence|].
    intros i e He. destruct (F2_nth _ _ _ _ _ Fc i e He) as (C & HC & Cond).
    assert (Hi : (i < length es)%nat) by (apply nth_error_Some; congruence).
    assert (Hm : exists d, nth_error (lbp g) i = Some d).
    { destruct (nth_error (lbp g) i) as [d|] eqn:X; [eauto|]. apply nth_error_None in X. rewrite Lb, Vars, map_length, seq_length in X. lia. }
    destruct Hm as (d & Hd). destruct (F2_nth _ _ _ _ _ Df i d Hd) as (n & Hn & En). destruct (A i C n HC Hn) as (T & HT & W).
    exists C, d, (snd n), T. split; [exact Cond|]. split; [|split; [exact Hd|split; [exact En|split; [exact HT|exact W]]]].
    rewrite Prs. clear -Hi HC Lc. assert (Hs : nth_error (map step_name (seq 0 (length es))) i = Some (step_name i)).
    { rewrite (map_nth_error step_name i (seq 0 (length es)) (d := i)); [reflexivity|]. rewrite nth_error_nth' with (d := 0%nat) by (rewrite seq_length; exact Hi). rewrite seq_nth by exact Hi. reflexivity. }
    apply (map_nth_error (prior_vector J)) in HC. apply nth_combine; assumption.
  Qed.

  (** From eleven time steps on the marginals are permuted: they are paired with
      the trees in the lexicographic order of their names, and "t10" comes third.
      The third tree is re-weighted with the marginal of the eleventh time step. *)
  Theorem C57_alignment_refuted : forall J lbp es Ts, independent_marginals lbp J es = Ok Ts ->
    (forall g, length (lbp g) = length (g_vars g)) -> (10 < length es)%nat -> ascending (map l_idx (leaves J)) ->
    exists g Cs C d nd T, ground J es = Ok (g, Cs) /\ nth_error Cs 2 = Some C /\
      nth_error (lbp g) 10 = Some d /\ normalized d false false (1 # 10) = Ok nd /\ nth_error Ts 2 = Some T /\ weighted_by J C nd T.
  Proof.
    intros J lbp es Ts E Lb Le Asc. unfold independent_marginals in E. destruct (ground J es) as [[g Cs]|x] eqn:Eg; [|discriminate]. cbn [bind fst snd] in E.
    exists g, Cs. unfold ground in Eg. destruct (condition_all J es) as [cs|x] eqn:Ec; [|discriminate]. cbn [bind] in Eg. injection Eg as Eg <-.
    pose proof (condition_all_spec J es cs Ec) as Fc. pose proof (F2_left _ _ _ _ _ Fc) as Lc.
    assert (Vars : g_vars g = map step_name (seq 0 (length es))) by (rewrite <- Eg; reflexivity). clear Eg.
    unfold leaf_distribution in E. match type of E with bind ?m _ = _ => destruct m as [ds|x] eqn:Ed; [|discriminate] end. cbn [bind] in E.
    destruct (distribution_spec _ _ _ Ed (eq_sym (Lb g))) as [Dn Df]. rewrite Vars in Dn.
    assert (Lds : length ds = length cs). { rewrite <- Lc, <- (map_length fst ds), Dn, map_length, seq_length. reflexivity. }
    assert (Hc : exists C, nth_error cs 2 = Some C). { destruct (nth_error cs 2) eqn:X; [eauto|]. apply nth_error_None in X. lia. }
    assert (Hm : exists d, nth_error (lbp g) 10 = Some d).
    { destruct (nth_error (lbp g) 10) as [d|] eqn:X; [eauto|]. apply nth_error_None in X. rewrite Lb, Vars, map_length, seq_length in X. lia. }
    destruct Hc as (C & HC), Hm as (d & Hd). destruct (F2_nth _ _ _ _ _ Df 10%nat d Hd) as (n & Hn & En).
    assert (Third : nth_error (sort_named ds) 2 = Some n).
    { assert (ND : NoDup (map fst ds)). { rewrite Dn. apply FinFun.Injective_map_NoDup; [intros a b; apply step_inj|apply seq_NoDup]. }
      assert (P := sort_perm ds). assert (O := sort_sorted _ ds). assert (NDs : NoDup (map fst (sort_named ds))) by (apply (Permutation_NoDup (Permutation_map fst (Permutation_sym P)) ND)).
      assert (Nm : forall k y, nth_error ds k = Some y -> fst y = step_name k).
      { intros k y Hk. assert (Kl : (k < length es)%nat) by (rewrite Lc, <- Lds; apply nth_error_Some; congruence). apply (map_nth_error fst) in Hk. rewrite Dn in Hk.
        rewrite (map_nth_error step_name k (seq 0 (length es)) (d := k)) in Hk; [congruence|]. rewrite nth_error_nth' with (d := 0%nat) by (rewrite seq_length; exact Kl). rewrite seq_nth by exact Kl. reflexivity. }
      destruct ds as [|x0 [|x1 ds]]; try (cbn in Hn; discriminate).
      assert (Sp : exists a b, ds = a ++ n :: b /\ length a = 8%nat). { change (nth_error ds 8 = Some n) in Hn. apply nth_error_split in Hn. exact Hn. }
      destruct Sp as (a & b & -> & La).
      assert (P' : Permutation (sort_named (x0 :: x1 :: a ++ n :: b)) (x0 :: x1 :: n :: a ++ b)). { rewrite P. do 2 apply perm_skip. apply Permutation_sym, Permutation_middle. }
      assert (X0 : fst x0 = step_name 0) by (apply Nm; reflexivity). assert (X1 : fst x1 = step_name 1) by (apply Nm; reflexivity). assert (Xn : fst n = step_name 10) by (apply Nm; exact Hn).
      assert (Oth : forall y, In y (a ++ b) -> exists k, fst y = step_name k /\ k <> 0%nat /\ k <> 1%nat).
      { intros y I. assert (I' : In y (a ++ n :: b)) by (apply in_app_or in I; apply in_or_app; destruct I; [left|right; right]; assumption).
        apply In_nth_error in I'. destruct I' as (k & Hk). exists (S (S k)). split; [apply Nm; exact Hk|split; discriminate]. }
      destruct (least_first _ x0 _ _ P' O NDs) as (l1 & E1 & P1 & O1).
      { intros y I. rewrite X0. destruct I as [<-|[<-|I]]; [rewrite X1; apply first_step|rewrite Xn; apply first_step|]. destruct (Oth y I) as (k & -> & _). apply first_step. }
      rewrite E1 in NDs. cbn [map] in NDs. apply NoDup_cons_iff in NDs. destruct NDs as [_ NDs].
      destruct (least_first _ x1 _ _ P1 O1 NDs) as (l2 & E2 & P2 & O2).
      { intros y I. rewrite X1. destruct I as [<-|I]; [rewrite Xn; vm_compute; reflexivity|]. destruct (Oth y I) as (k & -> & K0 & _). apply second_step, K0. }
      rewrite E2 in NDs. cbn [map] in NDs. apply NoDup_cons_iff in NDs. destruct NDs as [_ NDs].
      destruct (least_first _ n _ _ P2 O2 NDs) as (l3 & E3 & _ & _).
      { intros y I. rewrite Xn. destruct (Oth y I) as (k & -> & K0 & K1). apply third_step; assumption. }
      rewrite E1, E2, E3. reflexivity. }
    assert (Lsd : length (sort_named ds) = length cs) by (rewrite (Permutation_length (sort_perm ds)); exact Lds).
    destruct (adjust_spec J cs (sort_named ds) Ts E Lsd Asc) as [_ A]. destruct (A 2%nat C n HC Third) as (T & HT & W).
    exists C, d, (snd n), T. repeat split; try assumption; try reflexivity; apply W.
  Qed.
End M.
Print Assumptions C57_grounding.
Print Assumptions C57_alignment_partial.
Print Assumptions C57_alignment_refuted.

(** *** Witnesses *)

(** Exact marginals of the chain the factor graph describes: the weight of a path
    of leaf positions is the product of its priors and transitions; the marginal
    of a step at a position is the total weight of the paths through it. *)
Fixpoint path_weight (tm : list (list Q)) (priors : list (list Q)) (path : list nat) : Q :=
  match priors, path with
  | p :: priors', a :: path' =>
      nth a p 0 * match path' with [] => 1 | b :: _ => nth b (nth a tm []) 0 end * path_weight tm priors' path'
  | _, _ => 1
  end.
Fixpoint paths (k n : nat) : list (list nat) :=
  match n with O => [[]] | S n' => flat_map (fun a => map (cons a) (paths k n')) (seq 0 k) end.
Definition chain_marginals (k : nat) (tm : list (list Q)) (g : graph) : list (list Q) :=
  let priors := map snd (g_priors g) in
  map (fun i => map (fun a => Qsum (map (path_weight tm priors) (filter (fun path => (nth i path k =? a)%nat) (paths k (length priors))))) (seq 0 k)) (seq 0 (length priors)).

(** The tree of [TreeExample.v] with leaves 1, 3, 4; the second observation fixes
    the symbolic variable. *)
Definition seq_tm : list (list Q) := [[0; 1 # 4; 1 # 4]; [1 # 4; 1 # 8; 0]; [0; 0; 1 # 8]].
Example C57_alignment_example :
  match independent_marginals (chain_marginals 3 seq_tm) ex [[]; [(0%nat, [0; 1]%nat)]] with
  | Ok [T0; T1] => map l_idx (leaves T0) = [1; 3; 4]%nat /\ map l_idx (leaves T1) = [1; 3; 4]%nat /\ ascending (map l_idx (leaves ex))
  | _ => False
  end.
Proof. vm_compute. repeat split; repeat constructor. Qed.
Example C57_alignment_size : forall g, length (chain_marginals 3 seq_tm g) = length (map snd (g_priors g)).
Proof. intro g. unfold chain_marginals. rewrite map_length, seq_length. reflexivity. Qed.

(** Leaf priors are counted twice.  One time step without evidence: the exact
    marginal is the template itself, the result is not. *)
Theorem C57_prior_twice_refuted :
  match ground ex [[]], independent_marginals (chain_marginals 3 seq_tm) ex [[]] with
  | Ok (g, _), Ok [T] => Forall2 (Forall2 Qeq) (chain_marginals 3 seq_tm g) [map l_prior (leaves ex)] /\
      Forall2 Qeq (map l_prior (leaves ex)) [1 # 2; 1 # 4; 1 # 4] /\ Forall2 Qeq (map l_prior (leaves T)) [2 # 3; 1 # 6; 1 # 6]
  | _, _ => False
  end.
Proof. vm_compute. repeat constructor. Qed.
Print Assumptions C57_prior_twice_refuted.

(** A leaf which the transition model excludes keeps a positive weight. *)
Theorem C57_impossible_leaf_refuted :
  let tm := [[0; 1; 0]; [0; 0; 0]; [0; 0; 0]] in
  match ground ex [[]; []], independent_marginals (chain_marginals 3 tm) ex [[]; []] with
  | Ok (g, _), Ok [T0; T1] =>
      (* step 0 is in the first leaf and step 1 in the second one for sure *)
      Forall2 (Forall2 Qeq) (chain_marginals 3 tm g) [[1 # 8; 0; 0]; [0; 1 # 8; 0]] /\
      Forall2 Qeq (map l_prior (leaves T0)) [10 # 11; 1 # 22; 1 # 22] /\ Forall2 Qeq (map l_prior (leaves T1)) [2 # 13; 10 # 13; 1 # 13]
  | _, _ => False
  end.
Proof. vm_compute. repeat constructor. Qed.
Print Assumptions C57_impossible_leaf_refuted.

(** The marginals are in the order of the dictionary of leaves, but they are paired
    with the sorted leaf numbers: with leaves 4, 1, 3 in this order the weights go
    to the wrong leaves. *)
Definition ex_shuffled : jpt discrete := JPT (F := discrete) 2 (dfull ex_doms) [ex_root; ex_right] [ex_l4; ex_l1; ex_l3] (Some 0%nat) [].
Theorem C57_leaf_order_refuted :
  let lbp := fun _ : graph => [[2 # 10; 5 # 10; 3 # 10]] in
  match independent_marginals lbp ex_shuffled [[]] with
  | Ok [T] =>
      (* leaves 4, 1, 3 have the priors 1/4, 1/2, 1/4 and the marginals 2/10, 5/10, 3/10 *)
      map l_idx (leaves T) = [4; 1; 3]%nat /\ ~ Forall2 Qeq (map l_prior (leaves T)) [2 # 15; 10 # 15; 3 # 15] /\
      Forall2 Qeq (map l_prior (leaves T)) [3 # 12; 4 # 12; 5 # 12]
  | _ => False
  end.
Proof.
  vm_compute. split; [reflexivity|]. split; [|repeat constructor].
  intro H. inversion H as [|? ? ? ? E _]; subst. vm_compute in E. discriminate.
Qed.
Print Assumptions C57_leaf_order_refuted.

(** Eleven steps are reached: the hypotheses of [C57_alignment_refuted] hold. *)
Example C57_alignment_refuted_example :
  let lbp := fun g : graph => map (fun i => if (i =? 10)%nat then [1; 0; 0] else [0; 1; 0]) (seq 0 (length (g_vars g))) in
  match independent_marginals lbp ex (repeat [] 11) with
  | Ok Ts => map (fun T => map (fun l => Qred (l_prior l)) (leaves T)) (firstn 4 Ts) = [[2 # 13; 10 # 13; 1 # 13]; [2 # 13; 10 # 13; 1 # 13]; [10 # 11; 1 # 22; 1 # 22]; [2 # 13; 10 # 13; 1 # 13]]
  | Err _ => False
  end.
Proof. vm_compute. reflexivity. Qed.
