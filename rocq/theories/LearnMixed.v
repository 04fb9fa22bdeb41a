(** Learning from numeric, symbolic and integer columns: the learnt tree is well-formed
    in the sense of MixedProps.v, so that the theorems about trees with numeric variables
    apply to it. *)
Require Import QArith Qround ZArith Bool List Arith Permutation Lia Lqa.
Require Import Verif.Base Verif.FloatLine Verif.FloatVal Verif.NumBase Verif.IntervalModel Verif.IntervalSpec Verif.IntervalProofs Verif.DiscreteModel Verif.DiscreteProofs
  Verif.FunctionModel Verif.NumericModel Verif.NumericSpec Verif.NumericFit Verif.NumericProb
  Verif.TreeModel Verif.TreeSpec Verif.TreeApply Verif.TreeInfer Verif.TreeDiscrete Verif.NumericTree Verif.MixedTree Verif.MixedProps Verif.TreePartition
  Verif.ImpurityModel Verif.ImpuritySpec Verif.ImpurityProofs Verif.LearnModel Verif.LearnSpec Verif.LearnTree Verif.LearnProofs Verif.LearnInv Verif.LearnDiscrete.
Import ListNotations.
Open Scope nat_scope.

(** ** The arguments of [learn] *)

Definition learn_kind (k : MixedProps.kind) : LearnModel.kind := match k with None => Numeric | Some d => kind_of d end.
(** trees.py:1577-1607: the value sets of the two splits. *)
Definition mixed_mk (s : split_set) : vset (mixed numeric discrete) :=
  match s with
  | Below m => inl (NC (CS (- ORD_INF) m EXC EXC))
  | From m => inl (NC (CS m ORD_INF INC EXC))
  | Values l => inr l
  end.
(** trees.py:1616-1621 with numeric.py:244-261 (_fit), multinomial.py:402-414 and
    integer.py:387-402: the distribution of a column in the given rows. *)
Definition mixed_fit (epsilon : Q) (val : Z -> Q) (D : nat -> nat -> Z) (kinds : list MixedProps.kind) (rows : list nat) (v : var) : res (dist (mixed numeric discrete)) :=
  match nth v kinds None with
  | None => do p <- fit_cdf epsilon None None (map (fun r => D r v) rows); Ok (inl p)
  | Some d => do ps <- fit (n_values d) (map (fun r => int_at val D r v) rows); Ok (inr (DDist d ps))
  end.

(** ** Specification *)

(** The interval contains the number, the set contains the value index. *)
Definition in_interval (c : cs) (x : Z) : bool :=
  (match left c with INC => lower c <=? x | EXC => lower c <? x end && match right c with INC => x <=? upper c | EXC => x <? upper c end)%Z.
Definition mixed_cell (val : Z -> Q) (s : vset (mixed numeric discrete)) (x : Z) : bool :=
  match s with inl (NC c) => in_interval c x | inl (NR l) => existsb (fun c => in_interval c x) l | inr s => nmem (Z.to_nat (Qfloor (val x))) s end.

(** The training data.  [G v] are the bounds of interest of numeric variable [v]; it
    contains the split points and, as no two of them are neighbouring doubles, not much
    else.  A training value in [G v] occurs once.  Numbers are below 2^53. *)
Record trainable (val : Z -> Q) (neg1 : Z) (D : nat -> nat -> Z) (imp : impurity) (kinds : list MixedProps.kind) (G : var -> grid) (mid : Z -> Z -> Z) (N : nat) : Prop := Trainable {
  tr_mono : forall a b, (a < b)%Z -> (val a < val b)%Q;
  tr_neg1 : (val neg1 < 0)%Q;
  tr_number : forall r v, r < N -> v < length kinds -> nth v kinds None = None -> (Z.abs (D r v) < ORD_53)%Z;
  tr_value : forall r v d, r < N -> v < length kinds -> nth v kinds None = Some d -> exists x, x < n_values d /\ (val (D r v) == Qn x)%Q;
  tr_numeric : forall v, In v (numeric_features imp) -> v < length kinds /\ (nth v kinds None = None \/ exists lo hi, nth v kinds None = Some (IntDom lo hi));
  tr_symbolic : forall v, In v (symbolic_features imp) -> v < length kinds /\ exists ls, nth v kinds None = Some (SymDom ls);
  tr_mid : forall r r' v, r < N -> r' < N -> v < length kinds -> nth v kinds None = None -> (D r v < D r' v)%Z ->
    (D r v < mid (D r v) (D r' v) <= D r' v)%Z /\ G v (mid (D r v) (D r' v));
  tr_grid : forall v, gridded (G v);
  tr_once : forall v x, v < length kinds -> nth v kinds None = None -> G v x -> length (filter (fun r => D r v =? x)%Z (seq 0 N)) <= 1
}.

(** ** Proof *)
Section MixedLearning.
  Variable epsilon : Q.
  Variable val : Z -> Q.
  Variable inf : Z -> bool.
  Variable neg1 : Z.
  Variable D : nat -> nat -> Z.
  Variable imp : impurity.
  Variable kinds : list MixedProps.kind.
  Variable G : var -> grid.
  Variable mid : Z -> Z -> Z.
  Variable min_improvement : Q.
  Variable max_depth : option nat.
  Variable N : nat.
  Hypothesis Td : trainable val neg1 D imp kinds G mid N.

  Notation lkinds := (map learn_kind kinds).
  Notation index := (fun r v => int_at val D r v).

  Lemma lkind_at : forall v, nth_error lkinds v = if v <? length kinds then Some (learn_kind (nth v kinds None)) else None.
  Proof.
    intro v. destruct (Nat.ltb_spec v (length kinds)) as [L|L]; [|apply nth_error_None; rewrite map_length; exact L]. apply map_nth_error, nth_error_nth', L.
  Qed.
  Lemma mixed_index : forall r v d, r < N -> v < length kinds -> nth v kinds None = Some d -> index r v < n_values d.
  Proof. intros r v d Lr Lv K. destruct (tr_value _ _ _ _ _ _ _ _ Td r v d Lr Lv K) as (x & Lx & E). unfold int_at, symbol_at. rewrite (floor_Qn _ x E). exact Lx. Qed.
  Lemma below_cell : forall m x, (Z.abs x < ORD_53)%Z -> in_interval (CS (- ORD_INF) m EXC EXC) x = (x <? m)%Z.
  Proof. intros m x A. pose proof ord_facts as O. unfold in_interval. cbn [left right lower upper]. destruct (Z.ltb_spec (- ORD_INF) x); [reflexivity|lia]. Qed.
  Lemma from_cell : forall m x, (Z.abs x < ORD_53)%Z -> in_interval (CS m ORD_INF INC EXC) x = (m <=? x)%Z.
  Proof. intros m x A. pose proof ord_facts as O. unfold in_interval. cbn [left right lower upper]. destruct (Z.ltb_spec x ORD_INF); [apply andb_true_r|lia]. Qed.

  Lemma trainable_learnable : learnable val D lkinds (mixed_cell val) N neg1 imp mixed_mk mid (mixed_fit epsilon val D kinds).
  Proof.
    destruct Td as [Mo Ne Nu Va Nf Sf Mi Gr On]. constructor.
    - exact Mo.
    - exact Ne.
    - intros r v n Lr K. rewrite lkind_at in K. destruct (Nat.ltb_spec v (length kinds)) as [Lv|]; [|destruct K; discriminate].
      destruct (nth v kinds None) as [d|] eqn:Kd; [|destruct K; discriminate]. assert (n_values d = n) as <- by (destruct K as [K|K]; injection K as K; destruct d; cbn in K; try discriminate; injection K as <-; reflexivity).
      apply (Va r v d); assumption.
    - intros v I. destruct (Nf v I) as (Lv & [E|(lo & hi & E)]); rewrite lkind_at; (destruct (Nat.ltb_spec v (length kinds)); [|lia]); rewrite E; [left; reflexivity|right; eexists; reflexivity].
    - intros v I. destruct (Sf v I) as (Lv & ls & E). rewrite lkind_at. destruct (Nat.ltb_spec v (length kinds)); [|lia]. rewrite E. eexists. reflexivity.
    - intros r r' v Lr Lr' K L. rewrite lkind_at in K. destruct (Nat.ltb_spec v (length kinds)) as [Lv|]; [|discriminate]. destruct (nth v kinds None) as [[ls|lo hi]|] eqn:Kd; try discriminate.
      apply (Mi r r' v Lr Lr' Lv Kd L).
    - intros rows v Nr Inc Lv. rewrite map_length in Lv. unfold mixed_fit. destruct (nth v kinds None) as [d|] eqn:Kd.
      + destruct (fit_values (n_values d) (map (fun r => int_at val D r v) rows)) as (ps & E & _).
        * intro Z0. apply map_eq_nil in Z0. contradiction.
        * intros x Ix. apply in_map_iff in Ix. destruct Ix as (r & <- & Ir). apply Inc, in_seq in Ir. apply mixed_index; [lia|exact Lv|exact Kd].
        * rewrite E. eexists. reflexivity.
      + destruct (fitted_contract epsilon (map (fun r => D r v) rows) (fun _ => False)) as (p & E & _).
        * intro Z0. apply map_eq_nil in Z0. contradiction.
        * apply Forall_forall. intros x Ix. apply in_map_iff in Ix. destruct Ix as (r & <- & Ir). apply Inc, in_seq in Ir. apply Nu; [lia|exact Lv|exact Kd].
        * intros lo _. right. intros [].
        * rewrite E. eexists. reflexivity.
    - intros v k s0 s1 K Sp r Lr. rewrite lkind_at in K. destruct (Nat.ltb_spec v (length kinds)) as [Lv|]; [|discriminate]. injection K as <-. destruct (nth v kinds None) as [[ls|lo hi]|] eqn:Kd; cbn [learn_kind kind_of split_pair] in Sp.
      + destruct Sp as (y & _ & -> & ->); split; reflexivity.
      + destruct Sp as (y & _ & -> & ->); split; reflexivity.
      + destruct Sp as (r1 & r2 & _ & _ & _ & -> & ->). cbn [mixed_mk mixed_cell smem]. split; [apply below_cell|apply from_cell]; apply Nu; assumption.
  Qed.

  Notation rows_of := (rows_of (F := mixed numeric discrete) D (mixed_cell val) N).

  Section Learnt.
    Variable Spl : nat -> list nat -> list nat -> list nat -> Q -> Prop.
    Variable Stop : list nat -> Prop.
    Variable ps : list (dist (mixed numeric discrete)).
    Variable J : mtree.
    Variable ix : list nat.
    Variable bl : list (nat * nat).
    Hypothesis I : linv D lkinds mixed_mk mid (mixed_fit epsilon val D kinds) min_improvement max_depth (mixed_cell val) N Spl Stop (whole kinds) ps (State J ix []) bl.

    (** The training values of variable [v] in the rows of leaf [l]. *)
    Definition samples_of (l : leaf (mixed numeric discrete)) (v : var) : list Z := map (fun r => D r v) (rows_of (l_path l)).

    Lemma path_rows : forall p r v s, In r (rows_of p) -> In (v, s) p -> r < N /\ mixed_cell val s (D r v) = true.
    Proof.
      intros p r v s Ir Iv. unfold LearnSpec.rows_of in Ir. apply filter_In in Ir. destruct Ir as [Ir Ok_]. apply in_seq in Ir. split; [lia|]. unfold LearnSpec.row_ok in Ok_. rewrite forallb_forall in Ok_. exact (Ok_ (v, s) Iv).
    Qed.

    (** The leaf distributions are fitted to the rows of the leaf. *)
    Lemma mixed_dists : forall l v, In l (leaves J) -> v < length kinds -> exists rows d, Permutation rows (rows_of (l_path l)) /\ rows <> [] /\ nth_error (l_dists l) v = Some d /\ mixed_fit epsilon val D kinds rows v = Ok d.
    Proof.
      intros l v Il Lv. destruct (leaf_facts _ _ _ _ _ _ _ _ _ _ _ _ _ _ _ _ I l Il) as (Es & Ps & _ & rows & Pr' & Em).
      destruct (mapM_nth _ _ _ _ _ Em) as [_ Hm]. destruct (Hm v v) as (d & Ed & Ef).
      { rewrite map_length, (nth_error_nth' _ 0) by (rewrite seq_length; exact Lv). rewrite seq_nth by exact Lv. reflexivity. }
      exists rows, d. split; [exact Pr'|]. split; [|auto]. intros ->. apply Permutation_length in Pr'. cbn [length] in Pr'. lia.
    Qed.
    Lemma mixed_length : forall l, In l (leaves J) -> length (l_dists l) = length kinds.
    Proof.
      intros l Il. destruct (leaf_facts _ _ _ _ _ _ _ _ _ _ _ _ _ _ _ _ I l Il) as (_ & _ & _ & rows & _ & Em). destruct (mapM_nth _ _ _ _ _ Em) as [Lm _]. rewrite seq_length, map_length in Lm. exact Lm.
    Qed.

    Lemma mixed_splits : forall n s, In n (innernodes J) -> In s (i_splits n) -> i_var n < length kinds /\ suits (G (i_var n)) (nth (i_var n) kinds None) s.
    Proof.
      intros n s In_ Is. destruct (finished_inner _ _ _ _ _ _ _ _ _ _ _ _ _ _ _ _ I n In_) as (_ & _ & s0 & s1 & k & Es & Ek & Sp & _). rewrite Es in Is. rewrite lkind_at in Ek. destruct (Nat.ltb_spec (i_var n) (length kinds)) as [Lv|]; [|discriminate].
      split; [exact Lv|]. injection Ek as <-. destruct (nth (i_var n) kinds None) as [[ls|lo hi]|] eqn:Kd; cbn [learn_kind kind_of split_pair] in Sp.
      - destruct Sp as (y & Ly & -> & ->). cbn [In mixed_mk] in Is. destruct Is as [<-|[<-|[]]]; intros x Ix; [destruct Ix as [<-|[]]; exact Ly|]. apply filter_In in Ix. destruct Ix as [Ix _]. apply in_seq in Ix. apply Ix.
      - destruct Sp as (y & Ly & -> & ->). cbn [In mixed_mk] in Is. destruct Is as [<-|[<-|[]]]; intros x Ix.
        + assert (Ix' : In x (seq 0 (n_values (IntDom lo hi)))) by (rewrite <- (firstn_skipn y); apply in_or_app; left; exact Ix). apply in_seq in Ix'. apply Ix'.
        + assert (Ix' : In x (seq 0 (n_values (IntDom lo hi)))) by (rewrite <- (firstn_skipn y); apply in_or_app; right; exact Ix). apply in_seq in Ix'. apply Ix'.
      - destruct Sp as (r1 & r2 & L1 & L2 & L & -> & ->). cbn [In mixed_mk] in Is. destruct (tr_mid _ _ _ _ _ _ _ _ Td r1 r2 (i_var n) L1 L2 Lv Kd L) as [M Gm].
        pose proof (tr_number _ _ _ _ _ _ _ _ Td r1 (i_var n) L1 Lv Kd) as A1. pose proof (tr_number _ _ _ _ _ _ _ _ Td r2 (i_var n) L2 Lv Kd) as A2. pose proof ord_facts as O.
        pose proof (g_inf _ (tr_grid _ _ _ _ _ _ _ _ Td (i_var n))) as [Gl Gu]. set (m := mid _ _) in *. clearbody m.
        assert (Wm : IntervalSpec.moderate m /\ IntervalSpec.moderate ORD_INF /\ IntervalSpec.moderate (- ORD_INF)) by (unfold IntervalSpec.moderate; lia). destruct Wm as (W1 & W2 & W3).
        destruct Is as [<-|[<-|[]]]; cbn [suits]; (split; [|right; cbn [lower upper]; auto]); unfold wf; cbn [lower upper left right];
          (refine (conj _ (conj _ (conj _ (conj _ (conj _ (conj _ _)))))); first [assumption|lia|intro; first [reflexivity|lia]]).
    Qed.

    Lemma mixed_paths : forall l v s, In l (leaves J) -> In (v, s) (l_path l) -> v < length kinds /\ suits (G v) (nth v kinds None) s.
    Proof.
      assert (T : tree_ok J) by (exact (finished_tree _ _ _ _ _ _ _ _ _ _ _ _ _ _ _ _ I)).
      assert (Pth : forall len i m, get_node J i = Some m -> length (n_path m) = len -> forall v s, In (v, s) (n_path m) -> v < length kinds /\ suits (G v) (nth v kinds None) s).
      { induction len as [|len IH]; intros i m Gn Ln v s Iv; [destruct (n_path m); [contradiction|discriminate]|].
        destruct (node_path J T i m Gn) as [[Z0 _]|(n & k & s' & In_ & Gn' & _ & Es & Ep)]; [rewrite Z0 in Ln; discriminate|]. rewrite Ep in Iv, Ln. rewrite app_length in Ln. cbn [length] in Ln.
        apply in_app_or in Iv. destruct Iv as [Iv|[E|[]]]; [apply (IH (i_idx n) (NInner n) Gn'); [cbn [n_path]; lia|exact Iv]|]. injection E as <- <-. apply (mixed_splits n s' In_ (nth_error_In _ _ Es)). }
      intros l v s Il Iv. apply (Pth (length (l_path l)) (l_idx l) (NLeaf l)); [apply in_node_leaf; [exact (ids J T)|exact Il]|reflexivity|exact Iv].
    Qed.

    Lemma count_filtered : forall (f : nat -> Z) P l x, count_occ Z.eq_dec (map f (filter P l)) x <= length (filter (fun r => f r =? x)%Z l).
    Proof.
      intros f P l x. induction l as [|a l IH]; [apply Nat.le_refl|]. cbn [filter]. destruct (P a); cbn [map count_occ].
      - destruct (Z.eq_dec (f a) x) as [E|Ne]; destruct (Z.eqb_spec (f a) x) as [E'|Ne']; try contradiction; cbn [length]; lia.
      - destruct (f a =? x)%Z; cbn [length]; lia.
    Qed.
    Lemma all_filter : forall (A : Type) (T : A -> bool) l, (forall x, In x l -> T x = true) -> filter T l = l.
    Proof. intros A T l. induction l as [|a l IH]; intro H; [reflexivity|]. cbn [filter]. rewrite (H a (or_introl eq_refl)), IH; [reflexivity|]. intros x Ix. apply H. right. exact Ix. Qed.

    (** A discrete variable: relative frequencies in the rows of the leaf. *)
    Lemma mixed_frequencies : forall l v d, In l (leaves J) -> v < length kinds -> nth v kinds None = Some d ->
      exists p, nth_error (l_dists l) v = Some (inr (DDist d p)) /\ length p = n_values d /\ proper p /\
        forall T, (lmass (seq 0 (n_values d)) p T == Qn (length (filter (fun r => T (index r v)) (rows_of (l_path l)))) / Qn (l_samples l))%Q.
    Proof.
      intros l v d Il Lv K. destruct (mixed_dists l v Il Lv) as (rows & d' & Pm & Nr & Ed & Ef). destruct (leaf_facts _ _ _ _ _ _ _ _ _ _ _ _ _ _ _ _ I l Il) as (Es & Ps & _).
      assert (Lrows : forall r, In r rows -> r < N).
      { intros r Ir. apply (Permutation_in r Pm) in Ir. unfold LearnSpec.rows_of in Ir. apply filter_In in Ir. destruct Ir as [Ir _]. apply in_seq in Ir. lia. }
      unfold mixed_fit in Ef. rewrite K in Ef. destruct (fit_values (n_values d) (map (fun r => int_at val D r v) rows)) as (p & E & Lp & Pp & Gm & _).
      - intro Z0. apply map_eq_nil in Z0. contradiction.
      - intros x Ix. apply in_map_iff in Ix. destruct Ix as (r & <- & Ir). apply mixed_index; [apply Lrows, Ir|exact Lv|exact K].
      - rewrite E in Ef. cbn [bind] in Ef. injection Ef as <-. exists p. split; [exact Ed|]. split; [exact Lp|]. split; [exact Pp|]. intro T. rewrite Gm.
        assert (Cnt : length (filter T (map (fun r => int_at val D r v) rows)) = length (filter (fun r => T (int_at val D r v)) (rows_of (l_path l)))).
        { rewrite <- (Permutation_length (filter_perm _ (fun r => T (int_at val D r v)) _ _ Pm)). clear. induction rows as [|r rows IH]; [reflexivity|]. cbn [map filter]. destruct (T (int_at val D r v)); cbn [length]; congruence. }
        rewrite Cnt, map_length, Es, (Permutation_length Pm). reflexivity.
    Qed.

    Theorem learnt_fitted : fitted_tree epsilon kinds G samples_of J.
    Proof.
      pose proof (v_vars _ _ _ _ _ _ _ _ _ _ _ _ _ _ _ I) as (Vn & Vf & _). cbn [s_tree] in Vn, Vf. rewrite map_length in Vn. constructor.
      - exact Vn.
      - exact Vf.
      - exact (finished_tree _ _ _ _ _ _ _ _ _ _ _ _ _ _ _ _ I).
      - exact (tr_grid _ _ _ _ _ _ _ _ Td).
      - exact mixed_length.
      - intros l Il. destruct (leaf_facts _ _ _ _ _ _ _ _ _ _ _ _ _ _ _ _ I l Il) as (_ & Ps & Ep & _). rewrite Ep. apply Qlt_le_weak, Qdiv_pos; [apply Qn_pos; exact Ps|]. apply Qn_pos. destruct (leaf_block _ _ _ _ _ _ _ _ _ _ _ _ _ _ _ _ I l Il) as (b & _ & A & _). lia.
      - exact mixed_paths.
      - intros l v d Il Ed K. assert (Lv : v < length kinds) by (rewrite <- (mixed_length l Il); apply nth_error_Some; congruence).
        destruct (mixed_dists l v Il Lv) as (rows & d' & Pm & Nr & Ed' & Ef). rewrite Ed in Ed'. injection Ed' as <-. unfold mixed_fit in Ef. rewrite K in Ef.
        assert (Pms : Permutation (map (fun r => D r v) rows) (samples_of l v)) by (apply Permutation_map; exact Pm).
        assert (Ab : forall r, In r (rows_of (l_path l)) -> (Z.abs (D r v) < ORD_53)%Z).
        { intros r Ir. unfold LearnSpec.rows_of in Ir. apply filter_In in Ir. destruct Ir as [Ir _]. apply in_seq in Ir. apply (tr_number _ _ _ _ _ _ _ _ Td); [lia|exact Lv|exact K]. }
        split; [intro Z0; rewrite Z0 in Pms; apply Permutation_sym, Permutation_nil, map_eq_nil in Pms; contradiction|].
        split; [apply Forall_forall; intros x Ix; unfold samples_of in Ix; apply in_map_iff in Ix; destruct Ix as (r & <- & Ir); exact (Ab r Ir)|].
        split; [|split].
        + intros lo [Il' _]. destruct (Nat.eq_dec (count_occ Z.eq_dec (samples_of l v) lo) 1) as [E|Ne]; [left; exact E|right]. intro Gl. apply (count_occ_In Z.eq_dec) in Il'.
          pose proof (count_filtered (fun r => D r v) (row_ok D (mixed_cell val) (l_path l)) (seq 0 N) lo) as C. pose proof (tr_once _ _ _ _ _ _ _ _ Td v lo Lv K Gl) as O. unfold samples_of, LearnSpec.rows_of in *. lia.
        + destruct (fit_cdf epsilon None None (map (fun r => D r v) rows)) as [p|] eqn:Ep; [|discriminate]. cbn [bind] in Ef. injection Ef as <-. exists (map (fun r => D r v) rows), p. auto.
        + intros c Ic x Ix. unfold samples_of in Ix. apply in_map_iff in Ix. destruct Ix as (r & <- & Ir). destruct (path_rows _ r v _ Ir Ic) as [Lr Cc]. cbn [mixed_cell] in Cc. unfold in_interval in Cc. apply andb_true_iff in Cc. destruct Cc as [C1 C2].
          pose proof (Ab r Ir) as A. pose proof ord_facts as O. split; [unfold finite; lia|]. destruct (left c), (right c); split; first [apply Z.leb_le; assumption|apply Z.ltb_lt; assumption].
      - intros l v d dm Il Ed K. assert (Lv : v < length kinds) by (rewrite <- (mixed_length l Il); apply nth_error_Some; congruence).
        destruct (mixed_frequencies l v dm Il Lv K) as (p & Ed' & Lp & Pp & Gm). rewrite Ed in Ed'. injection Ed' as ->. split; [cbn [fits]; split; [reflexivity|]; split; [exact Lp|exact Pp]|].
        intros s Is. destruct (mixed_paths l v s Il Is) as [_ Ss]. rewrite K in Ss. unfold suits in Ss. destruct s as [[c|cs]|s]; try contradiction. apply mass_values. rewrite <- pm_sum. unfold pm. cbn [d_params]. rewrite Lp, (Gm (fun x => nmem x s)).
        destruct (leaf_facts _ _ _ _ _ _ _ _ _ _ _ _ _ _ _ _ I l Il) as (Es & Ps & _). rewrite (all_filter _ (fun r => nmem (index r v) s)), <- Es.
        + symmetry. apply Qdiv_same. pose proof (Qn_pos _ Ps). lra.
        + intros r Ir. destruct (path_rows _ r v _ Ir Is) as [_ Cc]. exact Cc.
    Qed.
  End Learnt.
End MixedLearning.
