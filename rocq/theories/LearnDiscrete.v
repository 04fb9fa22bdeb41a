(** Learning from symbolic and integer columns: the learnt tree is well-formed in the
    sense of TreeWorlds.v, so that every theorem about trees applies to it, its leaf
    distributions are relative frequencies and its marginals those of the data. *)
Require Import QArith Qround ZArith Bool List Arith Permutation Lia Lqa.
Require Import Verif.Base Verif.NumBase Verif.DiscreteModel Verif.DiscreteProofs Verif.DiscreteProofs2 Verif.TreeModel Verif.TreeSpec Verif.TreeApply Verif.TreeInfer Verif.TreePosterior Verif.TreeDiscrete Verif.TreeWorlds Verif.TreeWorldProofs Verif.TreeWorldMore Verif.TreePartition Verif.TreeWorldPrune Verif.ImpurityModel Verif.ImpuritySpec Verif.ImpurityProofs Verif.LearnModel Verif.LearnSpec Verif.LearnTree Verif.LearnProofs Verif.LearnInv.
Import ListNotations.
Open Scope nat_scope.

(** ** The arguments of [learn] for symbolic and integer variables *)

Definition kind_of (d : dom) : kind := match d with SymDom ls => Symbolic (length ls) | IntDom _ _ => Integer (n_values d) end.
(** Splits are sets of value indices. *)
Definition dmk (s : split_set) : vset discrete := match s with Values l => l | _ => [] end.
Definition dcell (val : Z -> Q) (s : vset discrete) (x : Z) : bool := nmem (Z.to_nat (Qfloor (val x))) s.
(** trees.py:1616-1621 with multinomial.py:402-414, integer.py:387-402 (_fit): the
    column's value indices in the given rows. *)
Definition dfit (val : Z -> Q) (D : nat -> nat -> Z) (doms : list dom) (rows : list nat) (v : var) : res (dist discrete) :=
  do ps <- fit (n_values (domain doms v)) (map (fun r => int_at val D r v) rows); Ok (DDist (domain doms v) ps).

Lemma nth_mass : forall ps k x, nth x ps 0%Q == lmass (seq k (length ps)) ps (Nat.eqb (k + x)).
Proof.
  unfold lmass. induction ps as [|p ps IH]; intros k x; [destruct x; reflexivity|]. cbn [length seq combine map Qsum fst snd]. destruct x as [|x].
  - rewrite Nat.add_0_r, Nat.eqb_refl. cbn [nth]. rewrite Qsum_map_zero; [lra|]. intros [l q] I. apply in_combine_l, in_seq in I. cbn [fst snd]. destruct (Nat.eqb_spec k l); [lia|reflexivity].
  - destruct (Nat.eqb_spec (k + S x) k); [lia|]. cbn [nth]. rewrite (IH (S k) x). replace (S k + x) with (k + S x) by lia. lra.
Qed.

Lemma fit_values : forall n vs, vs <> [] -> (forall x, In x vs -> x < n) -> exists ps, fit n vs = Ok ps /\ length ps = n /\ proper ps /\
  (forall T, lmass (seq 0 n) ps T == Qn (length (filter T vs)) / Qn (length vs))%Q /\
  (forall x, nth x ps 0 == Qn (length (filter (Nat.eqb x) vs)) / Qn (length vs))%Q.
Proof.
  intros n vs Nv H. assert (P : (0 < Qn (length vs))%Q) by (apply Qn_pos; destruct vs; [contradiction|cbn; lia]).
  assert (F2 : Forall2 (fun l v => nth_error (seq 0 n) v = Some l) vs vs).
  { clear Nv P. induction vs as [|v vs IH]; constructor; [|apply IH; intros; apply H; right; assumption]. rewrite (nth_error_nth' _ 0) by (rewrite seq_length; apply H; left; reflexivity). rewrite seq_nth by (apply H; left; reflexivity). reflexivity. }
  unfold fit. destruct (fit_loop_spec nat (seq 0 n) (1 / Qn (length vs)) vs vs (repeat 0%Q n) (fun _ => true)) as (ps & E & L & _); [rewrite repeat_length, seq_length; reflexivity|exact F2|].
  assert (G : forall T, (lmass (seq 0 n) ps T == Qn (length (filter T vs)) / Qn (length vs))%Q).
  { intro T. destruct (fit_loop_spec nat (seq 0 n) (1 / Qn (length vs)) vs vs (repeat 0%Q n) T) as (ps' & E' & _ & M); [rewrite repeat_length, seq_length; reflexivity|exact F2|]. rewrite E in E'. injection E' as <-. rewrite M, mass_zeros. unfold count. field. lra. }
  rewrite seq_length in L. exists ps. split; [exact E|]. split; [exact L|]. split; [|split; [exact G|]].
  - split; [apply (fit_loop_nonneg vs (repeat 0%Q n) (1 / Qn (length vs)) ps); [apply Qlt_le_weak, Qdiv_pos; lra| |exact E]; apply Forall_forall; intros x I; apply repeat_spec in I; subst; lra|].
    rewrite <- (mass_full nat (seq 0 n)) by (rewrite seq_length; auto). rewrite G. assert (filter (fun _ => true) vs = vs) as -> by (clear; induction vs; cbn; congruence). apply Qdiv_same. lra.
  - intro x. rewrite (nth_mass ps 0 x), L. cbn [Nat.add]. apply G.
Qed.

Lemma mapM_nth : forall A B (f : A -> res B) l ys, mapM f l = Ok ys -> length ys = length l /\ forall i x, nth_error l i = Some x -> exists y, nth_error ys i = Some y /\ f x = Ok y.
Proof.
  intros A B f l. induction l as [|a l IH]; intros ys E; cbn in E.
  - injection E as <-. split; [reflexivity|]. intros [|i] x H; discriminate.
  - destruct (f a) as [b|] eqn:Eb; cbn in E; [|discriminate]. destruct (mapM f l) as [bs|] eqn:Ebs; cbn in E; [|discriminate]. injection E as <-. destruct (IH bs eq_refl) as [L H]. split; [cbn; rewrite L; reflexivity|].
    intros [|i] x Ex; cbn in Ex |- *; [injection Ex as <-; exists b; auto|apply H; exact Ex].
Qed.

Section Discrete.
  Variable val : Z -> Q.
  Variable inf : Z -> bool.
  Variable neg1 : Z.
  Variable D : nat -> nat -> Z.
  Variable imp : impurity.
  Variable doms : list dom.
  Variable mid : Z -> Z -> Z.
  Variable min_improvement : Q.
  Variable max_depth : option nat.
  Variable N : nat.

  Notation kinds := (map kind_of doms).
  Notation index := (fun r v => int_at val D r v).

  (** The data are value indices of the columns' domains; symbolic features are
      symbolic variables and the others integer variables. *)
  Record coded : Prop := Coded {
    cd_mono : forall a b, (a < b)%Z -> (val a < val b)%Q;
    cd_neg1 : (val neg1 < 0)%Q;
    cd_cell : forall r v, r < N -> v < length doms -> exists x, x < n_values (domain doms v) /\ (val (D r v) == Qn x)%Q;
    cd_num : forall v, In v (numeric_features imp) -> v < length doms /\ exists lo hi, domain doms v = IntDom lo hi;
    cd_sym : forall v, In v (symbolic_features imp) -> v < length doms /\ exists ls, domain doms v = SymDom ls
  }.
  Hypothesis Cd : coded.

  Lemma kind_at : forall v, nth_error kinds v = if v <? length doms then Some (kind_of (domain doms v)) else None.
  Proof.
    intro v. destruct (Nat.ltb_spec v (length doms)) as [L|L]; [|apply nth_error_None; rewrite map_length; exact L]. unfold domain. apply map_nth_error, nth_error_nth', L.
  Qed.
  Lemma kind_size : forall d n, kind_of d = Symbolic n \/ kind_of d = Integer n -> n_values d = n.
  Proof. intros [ls|lo hi] n [E|E]; cbn in E; try discriminate; injection E as <-; reflexivity. Qed.

  Lemma index_lt : forall r v, r < N -> v < length doms -> index r v < n_values (domain doms v).
  Proof. intros r v Lr' Lv. destruct (cd_cell Cd r v Lr' Lv) as (x & Lx & E). unfold int_at, symbol_at. rewrite (floor_Qn _ x E). exact Lx. Qed.

  Lemma coded_learnable : learnable val D kinds (dcell val) N neg1 imp dmk mid (dfit val D doms).
  Proof.
    constructor.
    - exact (cd_mono Cd).
    - exact (cd_neg1 Cd).
    - intros r v n Lr' K. rewrite kind_at in K. destruct (Nat.ltb_spec v (length doms)) as [Lv|]; [|destruct K; discriminate]. assert (n_values (domain doms v) = n) as <- by (apply kind_size; destruct K as [K|K]; injection K as ->; auto). apply (cd_cell Cd); assumption.
    - intros v I. right. destruct (cd_num Cd v I) as (Lv & lo & hi & E). rewrite kind_at. destruct (Nat.ltb_spec v (length doms)); [|lia]. rewrite E. eexists. reflexivity.
    - intros v I. destruct (cd_sym Cd v I) as (Lv & ls & E). rewrite kind_at. destruct (Nat.ltb_spec v (length doms)); [|lia]. rewrite E. eexists. reflexivity.
    - intros r r' v _ _ K. rewrite kind_at in K. destruct (v <? length doms); [|discriminate]. destruct (domain doms v); discriminate.
    - intros rows v Nr Inc Lv. rewrite map_length in Lv. unfold dfit. destruct (fit_values (n_values (domain doms v)) (map (fun r => int_at val D r v) rows)) as (ps & E & _).
      + intro Z0. apply map_eq_nil in Z0. contradiction.
      + intros x Ix. apply in_map_iff in Ix. destruct Ix as (r & <- & Ir). apply Inc, in_seq in Ir. apply index_lt; [lia|exact Lv].
      + rewrite E. eexists. reflexivity.
    - intros v k s0 s1 K Sp r0 _. rewrite kind_at in K. destruct (v <? length doms); [|discriminate]. injection K as <-. destruct (domain doms v) as [ls|lo hi]; cbn [kind_of split_pair] in Sp; destruct Sp as (y & _ & -> & ->); split; reflexivity.
  Qed.

  Notation rows_of := (rows_of (F := discrete) D (dcell val) N).
  Notation learn_ := (learn (F := discrete) val inf neg1 D imp kinds dmk mid (dfit val D doms) min_improvement max_depth (dfull doms) N).

  Section Learnt.
    Variable Spl : nat -> list nat -> list nat -> list nat -> Q -> Prop.
    Variable Stop : list nat -> Prop.
    Variable ps : list (dist discrete).
    Variable J : jpt discrete.
    Variable ix : list nat.
    Variable bl : list (nat * nat).
    Hypothesis I : linv D kinds dmk mid (dfit val D doms) min_improvement max_depth (dcell val) N Spl Stop (dfull doms) ps (State J ix []) bl.

    (** The leaf distributions are the relative frequencies in the rows of the leaf. *)
    Lemma learnt_dists : forall l v, In l (leaves J) -> v < length doms ->
      exists p, nth_error (l_dists l) v = Some (DDist (domain doms v) p) /\ length p = n_values (domain doms v) /\ proper p /\
        (forall T, lmass (seq 0 (n_values (domain doms v))) p T == Qn (length (filter (fun r => T (index r v)) (rows_of (l_path l)))) / Qn (l_samples l))%Q /\
        (forall x, nth x p 0 == Qn (length (filter (fun r => Nat.eqb x (index r v)) (rows_of (l_path l)))) / Qn (l_samples l))%Q.
    Proof.
      intros l v Il Lv. destruct (leaf_facts _ _ _ _ _ _ _ _ _ _ _ _ _ _ _ _ I l Il) as (Es & Ps & _ & rows & Pr' & Em).
      destruct (mapM_nth _ _ _ _ _ Em) as [_ Hm]. destruct (Hm v v) as (d & Ed & Ef).
      { rewrite map_length, (nth_error_nth' _ 0) by (rewrite seq_length; exact Lv). rewrite seq_nth by exact Lv. reflexivity. }
      assert (Lrows : forall r, In r rows -> r < N).
      { intros r Ir. apply (Permutation_in r Pr') in Ir. unfold LearnSpec.rows_of in Ir. apply filter_In in Ir. destruct Ir as [Ir _]. apply in_seq in Ir. lia. }
      unfold dfit in Ef. destruct (fit_values (n_values (domain doms v)) (map (fun r => int_at val D r v) rows)) as (p & E & Lp & Pp & Gm & Gn).
      - intro Z0. apply map_eq_nil in Z0. subst rows. apply Permutation_length in Pr'. cbn [length] in Pr'. lia.
      - intros x Ix. apply in_map_iff in Ix. destruct Ix as (r & <- & Ir). apply index_lt; [apply Lrows, Ir|exact Lv].
      - rewrite E in Ef. cbn [bind] in Ef. injection Ef as <-. exists p. split; [exact Ed|]. split; [exact Lp|]. split; [exact Pp|].
        assert (Cnt : forall T, length (filter T (map (fun r => int_at val D r v) rows)) = length (filter (fun r => T (int_at val D r v)) (rows_of (l_path l)))).
        { intro T. rewrite <- (Permutation_length (filter_perm _ (fun r => T (int_at val D r v)) _ _ Pr')). clear. induction rows as [|r rows IH]; [reflexivity|]. cbn [map filter]. destruct (T (int_at val D r v)); cbn [length]; congruence. }
        assert (Ln : length (map (fun r => int_at val D r v) rows) = l_samples l) by (rewrite map_length, Es; apply Permutation_length, Pr').
        rewrite Ln in *. split; [intro T; rewrite Gm, Cnt; reflexivity|intro x; rewrite Gn, Cnt; reflexivity].
    Qed.

    Lemma learnt_path : forall l v s, In l (leaves J) -> In (v, s) (l_path l) -> v < length doms /\ forall x, In x s -> x < n_values (domain doms v).
    Proof.
      assert (Sub : forall n s, In n (innernodes J) -> In s (i_splits n) -> i_var n < length doms /\ forall x, In x s -> x < n_values (domain doms (i_var n))).
      { intros n s In_ Is. destruct (finished_inner _ _ _ _ _ _ _ _ _ _ _ _ _ _ _ _ I n In_) as (_ & _ & s0 & s1 & k & Es & Ek & Sp & _). rewrite Es in Is. rewrite kind_at in Ek. destruct (Nat.ltb_spec (i_var n) (length doms)) as [Lv|]; [|discriminate].
        split; [exact Lv|]. injection Ek as <-. destruct (domain doms (i_var n)) as [ls|lo hi] eqn:Ed; cbn [kind_of split_pair] in Sp; destruct Sp as (y & Ly & -> & ->); cbn [dmk In] in Is; intros x Ix; destruct Is as [<-|[<-|[]]].
        - destruct Ix as [<-|[]]. exact Ly.
        - apply filter_In in Ix. destruct Ix as [Ix _]. apply in_seq in Ix. apply Ix.
        - assert (Ix' : In x (seq 0 (n_values (IntDom lo hi)))) by (rewrite <- (firstn_skipn y); apply in_or_app; left; exact Ix). apply in_seq in Ix'. apply Ix'.
        - assert (Ix' : In x (seq 0 (n_values (IntDom lo hi)))) by (rewrite <- (firstn_skipn y); apply in_or_app; right; exact Ix). apply in_seq in Ix'. apply Ix'. }
      assert (T : tree_ok J) by (exact (finished_tree _ _ _ _ _ _ _ _ _ _ _ _ _ _ _ _ I)).
      assert (Pth : forall len i m, get_node J i = Some m -> length (n_path m) = len -> forall v s, In (v, s) (n_path m) -> v < length doms /\ forall x, In x s -> x < n_values (domain doms v)).
      { induction len as [|len IH]; intros i m G Ln v s Iv; [destruct (n_path m); [contradiction|discriminate]|].
        destruct (node_path J T i m G) as [[Z0 _]|(n & k & s' & In_ & Gn & _ & Es & Ep)]; [rewrite Z0 in Ln; discriminate|]. rewrite Ep in Iv, Ln. rewrite app_length in Ln. cbn [length] in Ln.
        apply in_app_or in Iv. destruct Iv as [Iv|[E|[]]]; [apply (IH (i_idx n) (NInner n) Gn); [cbn [n_path]; lia|exact Iv]|]. injection E as <- <-. apply (Sub n s' In_ (nth_error_In _ _ Es)). }
      intros l v s Il Iv. apply (Pth (length (l_path l)) (l_idx l) (NLeaf l)); [apply in_node_leaf; [exact (ids J T)|exact Il]|reflexivity|exact Iv].
    Qed.

    Theorem learnt_wf : wf_tree doms J.
    Proof.
      pose proof (v_vars _ _ _ _ _ _ _ _ _ _ _ _ _ _ _ I) as (Vn & Vf & _). cbn [s_tree] in Vn, Vf. rewrite map_length in Vn. constructor; [exact Vn|exact Vf|exact (finished_tree _ _ _ _ _ _ _ _ _ _ _ _ _ _ _ _ I)|].
      apply Forall_forall. intros l Il. destruct (leaf_facts _ _ _ _ _ _ _ _ _ _ _ _ _ _ _ _ I l Il) as (Es & Ps & Ep & rows & Pr' & Em). constructor.
      - destruct (mapM_nth _ _ _ _ _ Em) as [Lm _]. rewrite seq_length, map_length in Lm.
        assert (G : forall ds dms, length ds = length dms -> (forall i, i < length dms -> exists p, nth_error ds i = Some (DDist (nth i dms (IntDom 0 0)) p) /\ length p = n_values (nth i dms (IntDom 0 0)) /\ proper p) ->
                    Forall2 (fun Dm d => d_dom d = Dm /\ length (d_params d) = n_values Dm /\ Forall (fun p => (0 <= p)%Q) (d_params d) /\ (Qsum (d_params d) == 1)%Q) dms ds).
        { intro ds. induction ds as [|d ds IH]; intros [|dm dms] L H; try discriminate; constructor.
          - destruct (H 0) as (p & E & Lp & Pn & Ps'); [cbn; lia|]. cbn in E. injection E as ->. cbn. auto.
          - apply (IH dms); [cbn in L; lia|]. intros i Li. destruct (H (S i)) as (p & E & R); [cbn; lia|]. exists p. split; [exact E|exact R]. }
        apply G; [exact Lm|]. intros i Li. destruct (learnt_dists l i Il Li) as (p & E & Lp & Pp & _). exists p. auto.
      - rewrite Ep. apply Qlt_le_weak, Qdiv_pos; [apply Qn_pos; exact Ps|]. apply Qn_pos. destruct (leaf_block _ _ _ _ _ _ _ _ _ _ _ _ _ _ _ _ I l Il) as (b & _ & A & _). lia.
      - intros v s Iv. apply (learnt_path l v s Il Iv).
      - intros v s d x Iv Ed Nx. destruct (learnt_path l v s Il Iv) as [Lv _]. destruct (learnt_dists l v Il Lv) as (p & E & _ & _ & _ & Gn). rewrite Ed in E. injection E as ->. cbn [d_params]. rewrite Gn.
        assert (filter (fun r => Nat.eqb x (int_at val D r v)) (rows_of (l_path l)) = []) as ->.
        { destruct (filter _ (rows_of (l_path l))) as [|r rs] eqn:Ef; [reflexivity|]. exfalso. assert (Ir : In r (r :: rs)) by (left; reflexivity). rewrite <- Ef in Ir. apply filter_In in Ir. destruct Ir as [Ir Ex]. apply Nat.eqb_eq in Ex.
          unfold LearnSpec.rows_of in Ir. apply filter_In in Ir. destruct Ir as [_ Ok_]. unfold LearnSpec.row_ok in Ok_. rewrite forallb_forall in Ok_. specialize (Ok_ (v, s) Iv). cbn [fst snd] in Ok_. unfold dcell in Ok_. apply Nx. rewrite Ex. apply nmem_In. exact Ok_. }
        cbn [length]. unfold Qdiv. assert (Z0 : (Qn 0 == 0)%Q) by reflexivity. rewrite Z0. lra.
    Qed.

    Lemma learnt_partitioning : forall n, In n (innernodes J) -> i_var n < length doms /\
      forall x, x < n_values (domain doms (i_var n)) -> exists k s, nth_error (i_splits n) k = Some s /\ In x s /\ forall k' s', nth_error (i_splits n) k' = Some s' -> In x s' -> k' = k.
    Proof.
      intros n In_. destruct (finished_inner _ _ _ _ _ _ _ _ _ _ _ _ _ _ _ _ I n In_) as (_ & _ & s0 & s1 & k & Es & Ek & Sp & _). rewrite kind_at in Ek. destruct (Nat.ltb_spec (i_var n) (length doms)) as [Lv|]; [|discriminate]. injection Ek as <-.
      split; [exact Lv|]. intros x Lx. rewrite Es.
      assert (Two : forall a b : list nat, (In x a /\ ~ In x b) \/ (~ In x a /\ In x b) -> exists k s, nth_error [a; b] k = Some s /\ In x s /\ forall k' s', nth_error [a; b] k' = Some s' -> In x s' -> k' = k).
      { intros a b [[Ha Hb]|[Ha Hb]]; [exists 0, a|exists 1, b]; (split; [reflexivity|]); (split; [assumption|]); intros [|[|[|k']]] s' E Is; cbn in E; try discriminate; injection E as <-; try contradiction; reflexivity. }
      destruct (domain doms (i_var n)) as [ls|lo hi] eqn:Ed; cbn [kind_of split_pair] in Sp; destruct Sp as (y & Ly & -> & ->); cbn [dmk]; apply Two.
      - destruct (Nat.eq_dec x y) as [->|Ne]; [left|right]; split.
        + left; reflexivity.
        + intro H. apply filter_In in H. destruct H as [_ H]. rewrite Nat.eqb_refl in H. discriminate.
        + intros [H|[]]; congruence.
        + apply filter_In. split; [apply in_seq; cbn [n_values] in Lx; lia|]. apply negb_true_iff, Nat.eqb_neq, Ne.
      - set (m := n_values (IntDom lo hi)) in *. rewrite <- (firstn_skipn y (seq 0 m)) in *. 
        assert (Nd : NoDup (firstn y (seq 0 m) ++ skipn y (seq 0 m))) by (rewrite firstn_skipn; apply seq_NoDup). destruct (NoDup_app_parts _ _ _ Nd) as (_ & _ & Dj).
        assert (Ix : In x (firstn y (seq 0 m) ++ skipn y (seq 0 m))) by (rewrite firstn_skipn; apply in_seq; lia). rewrite firstn_skipn. apply in_app_or in Ix. destruct Ix as [Ix|Ix]; [left|right]; (split; [|]); try assumption; [apply Dj, Ix|intro K; apply (Dj x K Ix)].
    Qed.

    (** The marginals of the learnt joint distribution are those of the data. *)
    Theorem learnt_marginal : forall v s, v < length doms -> (forall x, In x s -> x < n_values (domain doms v)) ->
      (Pr doms J [(v, s)] == Qn (length (filter (fun r => nmem (index r v) s) (seq 0 N))) / Qn N)%Q.
    Proof.
      intros v s Lv Hs. pose proof learnt_wf as W. assert (Wq : wf_query doms [(v, s)]) by (split; [constructor; [intros []|constructor]|intros v' s' [E|[]]; injection E as <- <-; auto]).
      rewrite (Pr_mixture doms J W [(v, s)] Wq). assert (Pn : forall l, In l (leaves J) -> (0 < Qn (l_samples l))%Q /\ (0 < Qn N)%Q).
      { intros l Il. destruct (leaf_facts _ _ _ _ _ _ _ _ _ _ _ _ _ _ _ _ I l Il) as (_ & Ps & _). destruct (leaf_block _ _ _ _ _ _ _ _ _ _ _ _ _ _ _ _ I l Il) as (b & _ & A & _). split; apply Qn_pos; lia. }
      assert (G : forall ls, incl ls (leaves J) -> (Qsum (map (fun l : leaf discrete => l_prior l * leaf_prob (discrete_lawful doms) (l_dists l) [(v, s)]) ls) == Qn (length (filter (fun r => nmem (index r v) s) (flat_map (fun l => rows_of (l_path l)) ls))) / Qn N)%Q).
      { induction ls as [|l ls IH]; intro Inc; [cbn; unfold Qdiv; assert (Z0 : (Qn 0 == 0)%Q) by reflexivity; rewrite Z0; lra|]. cbn [map Qsum flat_map]. rewrite IH by (intros x Ix; apply Inc; right; exact Ix). clear IH.
        pose proof (Inc l (or_introl eq_refl)) as Il. destruct (Pn l Il) as [P1 P2]. destruct (leaf_facts _ _ _ _ _ _ _ _ _ _ _ _ _ _ _ _ I l Il) as (_ & _ & Ep & _). destruct (learnt_dists l v Il Lv) as (p & Ed & Lp & _ & Gm & _).
        rewrite filter_app, app_length, Qn_plus. cbn [leaf_prob]. rewrite Ed, Ep. cbn [P discrete_lawful probabilities discrete_measured d_params]. unfold pm. rewrite Lp, (Gm (fun x => nmem x s)). field. lra. }
      rewrite (G _ (incl_refl _)). rewrite (Permutation_length (filter_perm _ _ _ _ (leaf_rows _ _ _ _ _ _ _ _ _ _ _ _ _ _ _ _ I))). reflexivity.
    Qed.
  End Learnt.
End Discrete.
