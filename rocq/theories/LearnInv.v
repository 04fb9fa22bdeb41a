(** The invariant of the learning loop. *)
Require Import QArith Qround ZArith Bool List Arith Permutation Lia Lqa.
Require Import Verif.Base Verif.NumBase Verif.TreeModel Verif.TreeSpec Verif.TreeApply Verif.ImpurityModel Verif.ImpuritySpec Verif.ImpurityProofs Verif.LearnModel Verif.LearnSpec Verif.LearnTree Verif.LearnProofs.
Import ListNotations.
Open Scope nat_scope.

Lemma mapM_total : forall A B (f : A -> res B) l, (forall x, In x l -> exists y, f x = Ok y) -> exists ys, mapM f l = Ok ys.
Proof.
  intros A B f l. induction l as [|x l IH]; intro H; [exists []; reflexivity|]. destruct (H x (or_introl eq_refl)) as [y Ey]. destruct IH as [ys Eys]; [intros; apply H; right; assumption|].
  exists (y :: ys). cbn. rewrite Ey. cbn. rewrite Eys. reflexivity.
Qed.

Lemma Forall2_snoc : forall A B (R : A -> B -> Prop) l l' x y, Forall2 R l l' -> R x y -> Forall2 R (l ++ [x]) (l' ++ [y]).
Proof. intros. apply Forall2_app; [assumption|]. constructor; [assumption|constructor]. Qed.
Lemma Forall2_impl_in : forall A B (R S : A -> B -> Prop) l l', Forall2 R l l' -> (forall x y, In x l -> In y l' -> R x y -> S x y) -> Forall2 S l l'.
Proof. intros A B R S l l' H. induction H as [|x y l l' Hxy H IH]; intro K; [constructor|]. constructor; [apply K; [left|left|]; auto|]. apply IH. intros a b Ia Ib. apply K; right; assumption. Qed.

Section LearnInv.
  Context {F : family}.
  Variable val : Z -> Q.
  Variable inf : Z -> bool.
  Variable neg1 : Z.
  Variable D : nat -> nat -> Z.
  Variable imp : impurity.
  Variable kinds : list kind.
  Variable mk : split_set -> vset F.
  Variable mid : Z -> Z -> Z.
  Variable fit : list nat -> var -> res (dist F).
  Variable min_improvement : Q.
  Variable max_depth : option nat.
  Variable cell_in : vset F -> Z -> bool.
  Variable N : nat.
  Hypothesis Lr : learnable val D kinds cell_in N neg1 imp mk mid fit.

  Notation row_ok := (row_ok D cell_in).
  Notation rows_of := (rows_of D cell_in N).
  Notation smem := (smem val).
  Notation search := (compute_best_split val inf neg1 D imp).

  (** What the search promises about a split it reports and about a block without
      an admissible split; both depend only on the sets of rows. *)
  Variable Spl : nat -> list nat -> list nat -> list nat -> Q -> Prop.
  Variable Stop : list nat -> Prop.
  Hypothesis Spl_search : forall rows s g v p, incl rows (seq 0 N) -> search rows = Ok s -> gain s = Some g -> best_var s = Some v -> best_split_pos s = Some p ->
    Spl v rows (firstn (S p) (slice s)) (skipn (S p) (slice s)) g.
  Hypothesis Spl_perm : forall v rows L R g rows' L' R', Permutation rows rows' -> Permutation L L' -> Permutation R R' -> Spl v rows L R g -> Spl v rows' L' R' g.
  Hypothesis Stop_search : forall rows s, incl rows (seq 0 N) -> search rows = Ok s -> gain_allows min_improvement (gain s) = false -> Stop rows.
  Hypothesis Stop_perm : forall rows rows', Permutation rows rows' -> Stop rows -> Stop rows'.

  Definition inner_ok (n : inner F) : Prop :=
    i_samples n = length (rows_of (i_path n)) /\
    depth_allows max_depth (length (i_path n)) = true /\
    exists s0 s1 k, i_splits n = [mk s0; mk s1] /\ nth_error kinds (i_var n) = Some k /\ split_pair D N mid (i_var n) k s0 s1 /\
      exists g, (min_improvement <= g)%Q /\
        Spl (i_var n) (rows_of (i_path n)) (rows_of (i_path n ++ [(i_var n, mk s0)])) (rows_of (i_path n ++ [(i_var n, mk s1)])) g.

  Definition leaf_ok (ix : list nat) (l : leaf F) (b : nat * nat) : Prop :=
    fst b < snd b <= N /\
    Permutation (block ix (fst b) (snd b)) (rows_of (l_path l)) /\
    l_samples l = snd b - fst b /\ l_prior l = (Qn (snd b - fst b) / Qn N)%Q /\
    mapM (fit (block ix (fst b) (snd b))) (seq 0 (length kinds)) = Ok (l_dists l) /\
    (depth_allows max_depth (length (l_path l)) = false \/ Stop (rows_of (l_path l))).

  Definition call_ok (J : jpt F) (ix : list nat) (c : call) : Prop :=
    c_start c < c_end c <= N /\ exists path, place_path J (c_parent c) path /\ length path = c_depth c /\ Permutation (block ix (c_start c) (c_end c)) (rows_of path).
  Definition span (c : call) : nat * nat := (c_start c, c_end c).

  Record linv (fl : var -> vset F) (ps : list (dist F)) (st : state (F := F)) (bl : list (nat * nat)) : Prop := Linv {
    v_perm : Permutation (s_indices st) (seq 0 N);
    v_tree : growing (s_tree st) (map c_parent (s_queue st));
    v_cover : Permutation (flat_map positions_of (map span (s_queue st) ++ bl)) (seq 0 N);
    v_call : Forall (call_ok (s_tree st) (s_indices st)) (s_queue st);
    v_leaf : Forall2 (leaf_ok (s_indices st)) (leaves (s_tree st)) bl;
    v_inner : Forall inner_ok (innernodes (s_tree st));
    v_vars : n_vars (s_tree st) = length kinds /\ full (s_tree st) = fl /\ priors (s_tree st) = ps
  }.

  Fixpoint measure (q : list (call)) : nat := match q with [] => 0 | c :: q' => (2 * (c_end c - c_start c) - 1) + measure q' end.
  Lemma measure_app : forall a b, measure (a ++ b) = measure a + measure b.
  Proof. intros a b. induction a as [|c a IH]; [reflexivity|]. cbn [app measure]. rewrite IH. lia. Qed.

  Lemma rows_lt : forall path r, In r (rows_of path) -> r < N.
  Proof. intros path r I. unfold LearnSpec.rows_of in I. apply filter_In in I. destruct I as [I _]. apply in_seq in I. lia. Qed.
  Lemma rows_of_snoc : forall path v s, rows_of (path ++ [(v, s)]) = filter (fun r => cell_in s (D r v)) (rows_of path).
  Proof.
    intros path v s. unfold LearnSpec.rows_of.
    assert (E : forall r, row_ok (path ++ [(v, s)]) r = row_ok path r && cell_in s (D r v)).
    { intro r. unfold LearnSpec.row_ok. rewrite forallb_app. cbn [forallb fst snd]. rewrite andb_true_r. reflexivity. }
    generalize (seq 0 N) as rws; induction rws as [|r l IH]; [reflexivity|]. cbn [filter]. rewrite E.
    destruct (row_ok path r); cbn [andb filter]; [destruct (cell_in s (D r v)); rewrite IH; reflexivity|exact IH].
  Qed.

  Lemma inner_ok_like : forall n n', like n n' -> inner_ok n -> inner_ok n'.
  Proof. intros n n' (E1 & E2 & E3 & E4 & E5 & E6). unfold inner_ok. rewrite E3, E4, E5, E6. auto. Qed.

  Lemma extend_inner_ok : forall J h m, Forall inner_ok (innernodes J) -> match m with NInner n => inner_ok n | NLeaf _ => True end -> Forall inner_ok (innernodes (extended J h m)).
  Proof.
    intros J h m H Hm. unfold extended, set_root. destruct m as [n|l]; cbn [grafted innernodes with_nodes n_idx].
    - fold (upd_of (F := F) h (i_idx n)). apply Forall_app. split; [|constructor; [exact Hm|constructor]]. apply Forall_map. eapply Forall_impl; [|exact H]. intros x. apply inner_ok_like, upd_of_like.
    - fold (upd_of (F := F) h (l_idx l)). apply Forall_map. eapply Forall_impl; [|exact H]. intros x. apply inner_ok_like, upd_of_like.
  Qed.

  Lemma extended_static : forall J h m, n_vars (extended J h m) = n_vars J /\ full (extended J h m) = full J /\ priors (extended (F := F) J h m) = priors J.
  Proof. intros J h m. unfold extended, set_root. destruct m; cbn; auto. Qed.
  Lemma extended_leaves : forall J h m, leaves (extended (F := F) J h m) = leaves J ++ match m with NInner _ => [] | NLeaf l => [l] end.
  Proof. intros J h m. unfold extended, set_root. destruct m; cbn; [rewrite app_nil_r|]; reflexivity. Qed.

  Lemma span_disjoint : forall (c : call) q bl b, Permutation (flat_map positions_of (map span (c :: q) ++ bl)) (seq 0 N) -> In b (map span q ++ bl) ->
    c_start c < c_end c -> fst b < snd b -> snd b <= c_start c \/ c_end c <= fst b.
  Proof.
    intros c q bl b P I Nc Nb. apply in_split in I. destruct I as (l1 & l2 & E). cbn [map app] in P. rewrite E in P.
    change (c_start c) with (fst (span c)). change (c_end c) with (snd (span c)). apply (spans_disjoint _ (span c) b (l1 ++ l2) N (perm_skip _ (Permutation_middle l1 l2 b)) P Nc Nb).
  Qed.

  Theorem step : forall fl ps J ix c q bl, linv fl ps (State J ix (c :: q)) bl ->
    exists st' bl', c45 val inf neg1 D imp kinds mk mid fit min_improvement max_depth N c (State J ix q) = Ok st' /\ linv fl ps st' bl' /\ measure (s_queue st') < measure (c :: q).
  Proof.
    intros fl ps J ix c q bl I. destruct I as [Pm Tr Cv Cs Ls Is St]. cbn [s_tree s_indices s_queue] in *.
    inversion Cs as [|c0 q0 Hc Hq Eq]. subst c0 q0. destruct Hc as ((Lse & Len) & path & Pp & Lp & Pb).
    assert (Lix : length ix = N) by (rewrite (Permutation_length Pm), seq_length; reflexivity).
    set (s := c_start c) in *. set (e := c_end c) in *.
    assert (Inc : incl (block ix s e) (seq 0 N)) by (intros x Ix; apply (Permutation_in x Pm), (block_incl ix s e x Ix)).
    assert (Neg : forall r v, In r (block ix s e) -> In v (symbolic_features imp) -> (neg1 < D r v)%Z).
    { intros r v Ir Iv. destruct (l_symbolic _ _ _ _ _ _ _ _ _ _ Lr v Iv) as [n K]. apply Inc, in_seq in Ir. apply (neg1_below val neg1 D imp kinds mk mid fit cell_in N Lr r v n); [lia|exact K]. }
    destruct (best_split_shape val inf neg1 D imp (block ix s e) Neg) as (sp & Esp & Psl & Hsp).
    unfold c45. cbn [s_tree s_indices s_queue]. change (firstn (c_end c - c_start c) (skipn (c_start c) ix)) with (block ix s e). rewrite Esp. cbn [bind]. fold s e.
    assert (Lsl : length (slice sp) = e - s) by (rewrite <- (Permutation_length Psl); apply block_length; lia).
    change (firstn s ix ++ slice sp ++ skipn e ix) with (replaced ix s e (slice sp)). set (ix' := replaced ix s e (slice sp)).
    assert (Pix : Permutation ix' (seq 0 N)) by (etransitivity; [apply replaced_perm; [lia|lia|exact Psl]|exact Pm]).
    assert (Bx : block ix' s e = slice sp) by (apply block_replaced; lia).
    assert (Oth : forall b, In b (map span q ++ bl) -> fst b < snd b -> block ix' (fst b) (snd b) = block ix (fst b) (snd b)).
    { intros b Ib Nb. apply block_other; [lia|lia|exact Lsl|]. apply (span_disjoint c q bl b Cv Ib Lse Nb). }
    assert (Ls' : Forall2 (leaf_ok ix') (leaves J) bl).
    { apply (Forall2_impl_in _ _ _ _ _ _ Ls). intros l b _ Ib ((A1 & A2) & A3 & A4 & A5 & A6 & A7). unfold leaf_ok. rewrite (Oth b); [auto 10|apply in_or_app; right; exact Ib|exact A1]. }
    cbn [map] in Tr. destruct (link_spec J (c_parent c) (map c_parent q) (n_nodes J) Tr) as (J1 & path1 & El & Pp1 & EJ1). pose proof (place_path_fun _ _ _ _ Pp Pp1) as <-.
    assert (Fresh : forall m : node F, n_idx m = n_nodes J -> forall x, In x (node_ids J) -> x < n_idx m) by (intros m Em x Ix; rewrite Em; apply (g_lt _ _ Tr), Ix).
    assert (Hq' : forall m : node F, n_idx m = n_nodes J -> Forall (call_ok (extended J (c_parent c) m) ix') q).
    { intros m Em. rewrite Forall_forall in Hq |- *. intros c' Ic'. destruct (Hq c' Ic') as (A & p' & B1 & B2 & B3). split; [exact A|]. exists p'. split; [apply like_path; [apply (g_ids _ _ Tr)|apply Fresh; exact Em|exact B1]|]. split; [exact B2|].
      change (block ix' (c_start c') (c_end c')) with (block ix' (fst (span c')) (snd (span c'))).
      rewrite (Oth (span c')); [exact B3|apply in_or_app; left; apply in_map; exact Ic'|exact (proj1 A)]. }
    destruct (gain_allows min_improvement (gain sp) && depth_allows max_depth (c_depth c)) eqn:Cond.
    - (* a decision node *)
      apply andb_true_iff in Cond. destruct Cond as [Cg Cd]. destruct (gain sp) as [g|] eqn:Eg; [|discriminate]. destruct (Hsp g eq_refl) as (v & p & Ev & Ep & Iv & Spr). rewrite Ev, Ep.
      assert (Incs : incl (slice sp) (seq 0 N)) by (intros x Ix; apply Inc, (Permutation_in x (Permutation_sym Psl) Ix)).
      destruct (make_splits_spec val inf neg1 D imp kinds mk mid fit cell_in N Lr v p (slice sp) Incs Iv Spr) as (a & b & s0 & s1 & k & Ea & Eb & Ems & Ek & Sk & Hs).
      pose proof (proj1 Spr) as Lps.
      assert (Na : nth_error ix' (s + p) = Some a) by (rewrite <- Bx in Ea; rewrite nth_block in Ea; destruct (p <? e - s); [exact Ea|discriminate]).
      assert (Nb : nth_error ix' (s + p + 1) = Some b) by (rewrite <- Bx in Eb; rewrite nth_block in Eb; destruct (S p <? e - s); [|discriminate]; rewrite <- Eb; f_equal; lia).
      rewrite Na, Nb, Ems. cbn [bind]. rewrite El. cbn [bind fst snd]. subst J1.
      set (n := Inner (n_nodes J) (parent_idx (c_parent c)) v (map mk [s0; s1]) [None; None] (e - s) path).
      set (J' := set_root _ _). assert (EJ' : J' = extended J (c_parent c) (NInner n)) by reflexivity. rewrite EJ'. clear J' EJ'.
      set (cut := s + p + 1). eexists _, bl. split; [reflexivity|]. cbn [s_tree s_indices s_queue].
      assert (G' : growing (extended J (c_parent c) (NInner n)) (map c_parent q ++ new_holes (NInner n))).
      { apply (growing_extend J (c_parent c) (map c_parent q) (NInner n) path Tr); [reflexivity|reflexivity|exact Pp|reflexivity|split; reflexivity]. }
      (* rows of the two children *)
      destruct (filter_firstn (fun r => smem s0 (D r v)) (slice sp) (S p)) as [F0 F1]; [intros i r Er; apply (proj1 (Hs i r Er))|].
      assert (F1' : skipn (S p) (slice sp) = filter (fun r => smem s1 (D r v)) (slice sp)).
      { rewrite F1. apply filter_ext_in. intros r Ir. apply In_nth_error in Ir. destruct Ir as [i Er]. symmetry. apply (proj2 (Hs i r Er)). }
      assert (Psp : Permutation (slice sp) (rows_of path)) by (etransitivity; [symmetry; exact Psl|exact Pb]).
      assert (P0 : Permutation (firstn (S p) (slice sp)) (rows_of (path ++ [(v, mk s0)]))).
      { rewrite F0, rows_of_snoc. rewrite (filter_ext_in (fun r => cell_in (mk s0) (D r v)) (fun r => smem s0 (D r v)) _ (fun r Ir => proj1 (l_mk _ _ _ _ _ _ _ _ _ _ Lr v k s0 s1 Ek Sk r (rows_lt _ r Ir)))). apply filter_perm, Psp. }
      assert (P1 : Permutation (skipn (S p) (slice sp)) (rows_of (path ++ [(v, mk s1)]))).
      { rewrite F1', rows_of_snoc. rewrite (filter_ext_in (fun r => cell_in (mk s1) (D r v)) (fun r => smem s1 (D r v)) _ (fun r Ir => proj2 (l_mk _ _ _ _ _ _ _ _ _ _ Lr v k s0 s1 Ek Sk r (rows_lt _ r Ir)))). apply filter_perm, Psp. }
      assert (Ecut : cut = s + S p) by (unfold cut; lia).
      assert (B0 : block ix' s cut = firstn (S p) (slice sp)) by (rewrite Ecut, (block_firstn ix' s e (S p)) by lia; rewrite Bx; reflexivity).
      assert (B1 : block ix' cut e = skipn (S p) (slice sp)) by (rewrite Ecut, (block_skipn ix' s e (S p)) by lia; rewrite Bx; reflexivity).
      assert (Gn : get_inner (extended J (c_parent c) (NInner n)) (n_nodes J) = Some n).
      { rewrite extended_inner by (apply Fresh; reflexivity). destruct (get_inner J (n_nodes J)) as [x|] eqn:Ex; [|cbn; rewrite Nat.eqb_refl; reflexivity].
        exfalso. destruct (get_inner_some J _ _ Ex) as [Ix Eix]. assert (K : n_nodes J < n_nodes J); [|lia]. apply (g_lt _ _ Tr). unfold node_ids. rewrite <- Eix at 1. apply in_or_app. left. apply in_map, Ix. }
      split.
      + constructor; cbn [s_tree s_indices s_queue].
        * exact Pix.
        * rewrite map_app. exact G'.
        * rewrite map_app. cbn [map span c_start c_end]. etransitivity; [|exact Cv]. cbn [map app]. rewrite flat_map_app, flat_map_app. cbn [flat_map]. rewrite flat_map_app. rewrite app_nil_r.
          assert (Es : positions_of (span c) = positions_of (s, cut) ++ positions_of (cut, e)).
          { unfold positions_of, span. cbn [fst snd]. fold s e. replace (e - s) with ((cut - s) + (e - cut)) by lia. rewrite seq_app. f_equal. f_equal. lia. }
          rewrite Es. unfold span at 2 3. cbn [c_start c_end]. rewrite (app_assoc (positions_of (s, cut) ++ positions_of (cut, e))). apply Permutation_app_tail. apply Permutation_app_comm.
        * apply Forall_app. split; [apply Hq'; reflexivity|]. constructor; [|constructor; [|constructor]].
          -- split; [cbn; lia|]. exists (path ++ [(v, mk s0)]). cbn [c_parent c_depth c_start c_end]. split; [exists n, (mk s0); auto|]. split; [rewrite app_length; cbn; lia|]. rewrite B0. exact P0.
          -- split; [cbn; lia|]. exists (path ++ [(v, mk s1)]). cbn [c_parent c_depth c_start c_end]. split; [exists n, (mk s1); auto|]. split; [rewrite app_length; cbn; lia|]. rewrite B1. exact P1.
        * rewrite extended_leaves, app_nil_r. exact Ls'.
        * apply extend_inner_ok; [exact Is|]. split; [cbn [n i_samples i_path]; rewrite <- (Permutation_length Psp); lia|]. split; [cbn [n i_path]; rewrite Lp; exact Cd|].
          exists s0, s1, k. split; [reflexivity|]. split; [exact Ek|]. split; [exact Sk|]. exists g. split; [apply Qle_bool_iff; exact Cg|]. cbn [n i_var i_path].
          apply (Spl_perm v (block ix s e) (firstn (S p) (slice sp)) (skipn (S p) (slice sp))); [exact Pb|exact P0|exact P1|]. apply (Spl_search _ sp g v p); assumption.
        * destruct (extended_static J (c_parent c) (NInner n)) as (-> & -> & ->). exact St.
      + rewrite measure_app. cbn [measure c_start c_end]. fold s e. lia.
    - (* a leaf *)
      change (firstn (e - s) (skipn s ix')) with (block ix' s e).
      assert (Incs : incl (block ix' s e) (seq 0 N)) by (rewrite Bx; intros x Ix; apply Inc, (Permutation_in x (Permutation_sym Psl) Ix)).
      destruct (mapM_total _ _ (fit (block ix' s e)) (seq 0 (length kinds))) as [ds Eds].
      { intros x Ix. apply in_seq in Ix. apply (l_fit _ _ _ _ _ _ _ _ _ _ Lr); [|exact Incs|lia]. rewrite Bx. intro Z0. rewrite Z0 in Lsl. cbn [length] in Lsl. lia. }
      rewrite Eds. cbn [bind]. rewrite El. cbn [bind fst snd]. subst J1.
      set (l := Leaf (n_nodes J) (parent_idx (c_parent c)) (Qn (e - s) / Qn N)%Q (e - s) ds path).
      set (J' := set_root _ _). assert (EJ' : J' = extended J (c_parent c) (NLeaf l)) by reflexivity. rewrite EJ'. clear J' EJ'.
      eexists _, (bl ++ [(s, e)]). split; [reflexivity|]. cbn [s_tree s_indices s_queue]. split; [|cbn [measure]; fold s e; lia]. constructor; cbn [s_tree s_indices s_queue].
      + exact Pix.
      + pose proof (growing_extend J (c_parent c) (map c_parent q) (NLeaf l) path Tr eq_refl eq_refl Pp eq_refl I) as G'. cbn [new_holes] in G'. rewrite app_nil_r in G'. exact G'.
      + etransitivity; [|exact Cv]. cbn [map app]. rewrite app_assoc. change (span c) with (s, e). rewrite flat_map_app. cbn [flat_map]. rewrite app_nil_r. apply Permutation_app_comm.
      + apply Hq'. reflexivity.
      + rewrite extended_leaves. apply Forall2_snoc; [exact Ls'|]. unfold leaf_ok. cbn [fst snd l l_path l_samples l_prior l_dists]. rewrite Bx in *. split; [lia|].
        assert (Psp : Permutation (slice sp) (rows_of path)) by (etransitivity; [symmetry; exact Psl|exact Pb]). split; [exact Psp|]. split; [reflexivity|]. split; [reflexivity|]. split; [exact Eds|].
        apply andb_false_iff in Cond. destruct Cond as [Cg|Cd]; [right|left; rewrite Lp; exact Cd]. apply (Stop_perm (block ix s e)); [exact Pb|]. apply (Stop_search _ sp Inc Esp Cg).
      + apply extend_inner_ok; [exact Is|exact I].
      + destruct (extended_static J (c_parent c) (NLeaf l)) as (-> & -> & ->). exact St.
  Qed.

  Theorem run_ok : forall fuel fl ps st bl, linv fl ps st bl -> measure (s_queue st) <= fuel ->
    exists J ix bl', run val inf neg1 D imp kinds mk mid fit min_improvement max_depth fuel N st = Ok J /\ linv fl ps (State J ix []) bl'.
  Proof.
    induction fuel as [|fuel IH]; intros fl ps [J ix [|c q]] bl I M.
    - exists J, ix, bl. split; [reflexivity|exact I].
    - exfalso. pose proof (v_call _ _ _ _ I) as Hc. cbn [s_queue] in *. inversion Hc as [|x y Hx Hy Exy]. destruct Hx as ((A & _) & _). cbn [measure] in M. lia.
    - exists J, ix, bl. split; [reflexivity|exact I].
    - destruct (step fl ps J ix c q bl I) as (st' & bl' & E & I' & M'). cbn [run s_queue s_tree s_indices]. rewrite E. cbn [bind]. apply (IH fl ps st' bl' I'). cbn [s_queue] in M. lia.
  Qed.

  Theorem learn_ok : forall fl, 0 < N -> exists J ix bl ps, learn val inf neg1 D imp kinds mk mid fit min_improvement max_depth fl N = Ok J /\ mapM (fit (seq 0 N)) (seq 0 (length kinds)) = Ok ps /\ linv fl ps (State J ix []) bl.
  Proof.
    intros fl Pos. unfold learn. destruct (Nat.eqb_spec N 0) as [|_]; [lia|].
    destruct (mapM_total _ _ (fit (seq 0 N)) (seq 0 (length kinds))) as [ps Eps].
    { intros x Ix. apply in_seq in Ix. apply (l_fit _ _ _ _ _ _ _ _ _ _ Lr); [|apply incl_refl|lia]. intro Z0. apply (f_equal (@length nat)) in Z0. rewrite seq_length in Z0. cbn [length] in Z0. lia. }
    rewrite Eps. cbn [bind].
    destruct (run_ok (2 * N) fl ps (State (JPT (length kinds) fl [] [] None ps) (seq 0 N) [Call 0 N None 0]) []) as (J & ix & bl' & E & I).
    - constructor; cbn [s_tree s_indices s_queue leaves innernodes n_vars full priors map span c_start c_end app flat_map c_parent].
      + reflexivity.
      + apply growing_start.
      + unfold positions_of. cbn [fst snd]. rewrite Nat.sub_0_r, app_nil_r. reflexivity.
      + constructor; [|constructor]. split; [cbn; lia|]. exists []. cbn [c_parent c_depth c_start c_end place_path]. split; [reflexivity|]. split; [reflexivity|]. unfold block. cbn [skipn]. rewrite Nat.sub_0_r, firstn_all2 by (rewrite seq_length; lia).
        unfold LearnSpec.rows_of. assert (filter (row_ok []) (seq 0 N) = seq 0 N) as ->; [|reflexivity]. generalize (seq 0 N) as rws; induction rws as [|x l IH]; [reflexivity|]. cbn. f_equal. exact IH.
      + constructor.
      + constructor.
      + auto.
    - cbn [s_queue measure c_start c_end]. lia.
    - exists J, ix, bl', ps. auto.
  Qed.

  (** ** Consequences for the finished tree *)
  Section Finished.
    Variable fl : var -> vset F.
    Variable ps : list (dist F).
    Variable J : jpt F.
    Variable ix : list nat.
    Variable bl : list (nat * nat).
    Hypothesis I : linv fl ps (State J ix []) bl.

    Lemma finished_tree : tree_ok J.
    Proof. apply growing_tree. exact (v_tree _ _ _ _ I). Qed.

    Lemma leaf_block : forall l, In l (leaves J) -> exists b, In b bl /\ leaf_ok ix l b.
    Proof.
      pose proof (v_leaf _ _ _ _ I) as H. cbn [s_tree s_indices] in H. clear I. induction H as [|l b ls bl' Hlb H IH]; intros x Ix; [contradiction|]. destruct Ix as [<-|Ix]; [exists b; split; [left; reflexivity|exact Hlb]|].
      destruct (IH x Ix) as (b' & Ib & Hb). exists b'. split; [right; exact Ib|exact Hb].
    Qed.

    (** Every training row satisfies the path of exactly one leaf. *)
    Lemma row_one_leaf : forall r, r < N -> exists l1 l l2, leaves J = l1 ++ l :: l2 /\ row_ok (l_path l) r = true /\ forall l', In l' (l1 ++ l2) -> row_ok (l_path l') r = false.
    Proof.
      intros r Lr'. pose proof (v_perm _ _ _ _ I) as Pm. pose proof (v_cover _ _ _ _ I) as Cv. pose proof (v_leaf _ _ _ _ I) as Ls. cbn [s_tree s_indices s_queue map app] in *.
      assert (Nix : NoDup ix) by (apply (Permutation_NoDup (Permutation_sym Pm)), seq_NoDup).
      assert (Ir : In r ix) by (apply (Permutation_in r (Permutation_sym Pm)), in_seq; lia). apply In_nth_error in Ir. destruct Ir as [j Ej].
      assert (Lj : j < N) by (rewrite <- (seq_length N 0), <- (Permutation_length Pm); apply nth_error_Some; congruence).
      assert (Inb : forall l b, leaf_ok ix l b -> (row_ok (l_path l) r = true <-> In j (positions_of b))).
      { intros l b ((A1 & A2) & A3 & _). unfold positions_of. rewrite in_seq. split.
        - intro H. assert (In r (block ix (fst b) (snd b))) as Ib by (apply (Permutation_in r (Permutation_sym A3)); apply filter_In; split; [apply in_seq; lia|exact H]).
          apply In_nth_error in Ib. destruct Ib as [i Ei]. rewrite nth_block in Ei. destruct (Nat.ltb_spec i (snd b - fst b)) as [Li|]; [|discriminate].
          assert (j = fst b + i); [|lia]. apply (proj1 (NoDup_nth_error ix) Nix); [apply nth_error_Some; congruence|congruence].
        - intro H. assert (In r (rows_of (l_path l))) as Ib; [|apply filter_In in Ib; apply Ib]. apply (Permutation_in r A3). apply nth_error_In with (j - fst b). rewrite nth_block. destruct (Nat.ltb_spec (j - fst b) (snd b - fst b)); [|lia]. rewrite <- Ej. f_equal. lia. }
      assert (Nd : NoDup (flat_map positions_of bl)) by (apply (Permutation_NoDup (Permutation_sym Cv)), seq_NoDup).
      assert (Ij : In j (flat_map positions_of bl)) by (apply (Permutation_in j (Permutation_sym Cv)), in_seq; lia).
      clear Cv. clear I. revert Nd Ij. induction Ls as [|l b ls bl' Hlb Ls IH]; intros Nd Ij; [contradiction|]. cbn [flat_map] in Nd, Ij. destruct (NoDup_app_parts _ _ _ Nd) as (Nd1 & Nd2 & Dj). apply in_app_or in Ij. destruct Ij as [Ij|Ij].
      - exists [], l, ls. split; [reflexivity|]. split; [apply (Inb l b Hlb); exact Ij|]. cbn [app]. intros l' Il'. destruct (row_ok (l_path l') r) eqn:E; [|reflexivity]. exfalso. apply (Dj j Ij).
        clear -Ls Il' Inb E. induction Ls as [|x y xs ys Hxy H IH]; [contradiction|]. cbn [flat_map]. apply in_or_app. destruct Il' as [<-|Il']; [left; apply (Inb x y Hxy); exact E|right; apply IH; exact Il'].
      - destruct (IH Nd2 Ij) as (l1 & l0 & l2 & El & A & B). exists (l :: l1), l0, l2. split; [rewrite El; reflexivity|]. split; [exact A|]. cbn [app]. intros l' [<-|Il']; [|apply B; exact Il'].
        destruct (row_ok (l_path l) r) eqn:E; [|reflexivity]. exfalso. apply (Dj j); [apply (Inb l b Hlb); exact E|exact Ij].
    Qed.

    Lemma leaf_facts : forall l, In l (leaves J) ->
      l_samples l = length (rows_of (l_path l)) /\ 0 < l_samples l /\ l_prior l = (Qn (l_samples l) / Qn N)%Q /\
      exists rows, Permutation rows (rows_of (l_path l)) /\ mapM (fit rows) (seq 0 (length kinds)) = Ok (l_dists l).
    Proof.
      intros l Il. destruct (leaf_block l Il) as (b & Ib & (A1 & A2) & A3 & A4 & A5 & A6 & A7).
      assert (Lix : length ix = N) by (pose proof (v_perm _ _ _ _ I) as Pm; cbn [s_indices] in Pm; rewrite (Permutation_length Pm), seq_length; reflexivity).
      split; [rewrite A4, <- (Permutation_length A3), block_length by lia; reflexivity|]. split; [lia|]. split; [rewrite A5, A4; reflexivity|]. exists (block ix (fst b) (snd b)). auto.
    Qed.

    Lemma samples_sum : fold_right (fun l acc => l_samples l + acc) 0 (leaves J) = N.
    Proof.
      pose proof (v_cover _ _ _ _ I) as Cv. pose proof (v_leaf _ _ _ _ I) as Ls. cbn [s_tree s_indices s_queue map app] in *. apply Permutation_length in Cv. rewrite seq_length in Cv. rewrite <- Cv. clear Cv I.
      induction Ls as [|l b ls bl' Hlb Ls IH]; [reflexivity|]. cbn [fold_right flat_map]. rewrite app_length, IH. destruct Hlb as (_ & _ & A & _). rewrite A. unfold positions_of. rewrite seq_length. reflexivity.
    Qed.
    Lemma priors_sum : 0 < N -> (Qsum (map l_prior (leaves J)) == 1)%Q.
    Proof.
      intro Pos. pose proof samples_sum as Ss. assert (Pn : (0 < Qn N)%Q) by (apply Qn_pos; exact Pos).
      assert (G : forall ls, incl ls (leaves J) -> (Qsum (map l_prior ls) == Qn (fold_right (fun l acc => (l_samples l + acc)%nat) 0%nat ls) / Qn N)%Q).
      { induction ls as [|l ls IH]; intro Inc; [cbn; unfold Qdiv; assert (Z0 : (Qn 0 == 0)%Q) by reflexivity; rewrite Z0; lra|]. cbn [map Qsum fold_right]. destruct (leaf_facts l (Inc l (or_introl eq_refl))) as (_ & _ & Ep & _).
        rewrite IH by (intros x Ix; apply Inc; right; exact Ix). rewrite Ep, Qn_plus. field. lra. }
      rewrite (G _ (incl_refl _)), Ss. apply Qdiv_same. lra.
    Qed.

    (** The rows of the leaves are the training rows. *)
    Lemma leaf_rows : Permutation (flat_map (fun l => rows_of (l_path l)) (leaves J)) (seq 0 N).
    Proof.
      pose proof (v_perm _ _ _ _ I) as Pm. pose proof (v_cover _ _ _ _ I) as Cv. pose proof (v_leaf _ _ _ _ I) as Ls. cbn [s_tree s_indices s_queue map app] in *. clear I.
      assert (Lix : length ix = N) by (rewrite (Permutation_length Pm), seq_length; reflexivity).
      assert (Eb : forall b, fst b < snd b <= N -> block ix (fst b) (snd b) = map (fun i => nth i ix 0) (positions_of b)).
      { intros b Hb. apply nth_ext_eq. intro i. rewrite nth_block. unfold positions_of. destruct (Nat.ltb_spec i (snd b - fst b)) as [Li|Li].
        - rewrite (nth_error_nth' ix 0) by lia. symmetry. apply (map_nth_error (fun j => nth j ix 0)). rewrite (nth_error_nth' _ 0) by (rewrite seq_length; lia). rewrite seq_nth by lia. reflexivity.
        - symmetry. apply nth_error_None. rewrite map_length, seq_length. lia. }
      assert (E : Permutation (flat_map (fun l => rows_of (l_path l)) (leaves J)) (map (fun i => nth i ix 0) (flat_map positions_of bl))).
      { clear Cv. induction Ls as [|l b ls bl' Hlb Ls IH]; [reflexivity|]. cbn [flat_map]. rewrite map_app. destruct Hlb as (A & B & _). rewrite <- (Eb b A), <- B. apply Permutation_app_head, IH. }
      etransitivity; [exact E|]. etransitivity; [apply Permutation_map, Cv|]. etransitivity; [|exact Pm]. rewrite <- Lix. assert (map (fun i => nth i ix 0) (seq 0 (length ix)) = ix) as ->; [|reflexivity].
      clear. induction ix as [|x l IH]; [reflexivity|]. cbn [length seq map nth]. f_equal. rewrite <- seq_shift, map_map. exact IH.
    Qed.

    Lemma finished_inner : forall n, In n (innernodes J) -> inner_ok n.
    Proof. intros n In_. pose proof (v_inner _ _ _ _ I) as H. cbn [s_tree] in H. rewrite Forall_forall in H. apply H, In_. Qed.

    (** A leaf that is not the root lies below a decision node. *)
    Lemma leaf_parent : forall l, In l (leaves J) -> (l_path l = [] /\ rows_of (l_path l) = seq 0 N) \/
      exists n v s0 s1 k g, In n (innernodes J) /\ v = i_var n /\ i_splits n = [mk s0; mk s1] /\ split_pair D N mid v k s0 s1 /\ depth_allows max_depth (length (i_path n)) = true /\
        (l_path l = i_path n ++ [(v, mk s0)] \/ l_path l = i_path n ++ [(v, mk s1)]) /\
        (min_improvement <= g)%Q /\ Spl v (rows_of (i_path n)) (rows_of (i_path n ++ [(v, mk s0)])) (rows_of (i_path n ++ [(v, mk s1)])) g.
    Proof.
      intros l Il. pose proof finished_tree as T. pose proof (in_node_leaf J (ids J T) l Il) as G. pose proof (parent_ok J T _ _ G) as Hp. cbn [n_parent] in Hp. destruct (l_parent l) as [p|] eqn:Ep.
      - right. destruct Hp as (n & En & Ic). destruct (get_inner_some J p n En) as [In_ Ei]. apply In_nth_error in Ic. destruct Ic as [k Ek].
        destruct (finished_inner n In_) as (_ & Dp & s0 & s1 & kd & Es & _ & Sp & g & Mg & HS).
        pose proof (lengths J T n In_) as Ln. rewrite Es in Ln. cbn [length] in Ln. assert (Lk : k < 2) by (rewrite <- Ln; apply nth_error_Some; congruence).
        exists n, (i_var n), s0, s1, kd, g. split; [exact In_|]. split; [reflexivity|]. split; [exact Es|]. split; [exact Sp|]. split; [exact Dp|]. split; [|split; [exact Mg|exact HS]].
        destruct (nth_error (i_splits n) k) as [s|] eqn:Esk; [|apply nth_error_None in Esk; rewrite Es in Esk; cbn in Esk; lia].
        destruct (child_ok J T n k (Some (l_idx l)) s In_ Ek Esk) as (i & m & Ei' & Gm & _ & Pm). inversion Ei'; subst i. rewrite G in Gm. inversion Gm; subst m. cbn [n_path] in Pm. rewrite Es in Esk.
        destruct k as [|[|k]]; [left|right|lia]; cbn in Esk; inversion Esk; subst s; exact Pm.
      - left. destruct (root_ok J T) as (r & m & Er & Gm & _ & Pth). rewrite Hp in Er. inversion Er; subst r. rewrite G in Gm. inversion Gm; subst m. cbn [n_path] in Pth. rewrite Pth. split; [reflexivity|].
        unfold LearnSpec.rows_of. generalize (seq 0 N) as rws; induction rws as [|x xs IH]; [reflexivity|]. cbn. f_equal. exact IH.
    Qed.

    Lemma leaf_stop : forall l, In l (leaves J) -> depth_allows max_depth (length (l_path l)) = false \/ Stop (rows_of (l_path l)).
    Proof. intros l Il. destruct (leaf_block l Il) as (b & Ib & H). apply H. Qed.

    Lemma leaf_depth : forall l m, In l (leaves J) -> max_depth = Some m -> length (l_path l) <= m.
    Proof.
      intros l m Il Em. destruct (leaf_parent l Il) as [[-> _]|(n & v & s0 & s1 & k & g & _ & _ & _ & _ & Dp & Pth & _)]; [cbn; lia|]. unfold depth_allows in Dp. rewrite Em in Dp. apply Nat.ltb_lt in Dp.
      destruct Pth as [-> | ->]; rewrite app_length; cbn [length]; lia.
    Qed.
  End Finished.
End LearnInv.
