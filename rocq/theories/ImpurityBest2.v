(** The split search, part 4: the reported split is the best legal split. *)
Require Import QArith Qround Lqa ZArith Bool List Arith Lia Permutation Setoid.
Require Import Verif.Base Verif.NumBase Verif.SortModel Verif.SortProofs Verif.ImpurityModel Verif.ImpuritySpec Verif.ImpurityProofs Verif.ImpurityStats Verif.ImpurityBest.
Import ListNotations.
Open Scope nat_scope.

Lemma filter_all : forall A (f : A -> bool) l, (forall x, In x l -> f x = true) -> filter f l = l.
Proof. intros A f l H. induction l as [|a l IH]; [reflexivity|]. cbn. rewrite (H a (or_introl eq_refl)). f_equal. apply IH. intros; apply H; right; assumption. Qed.

Lemma max_key : forall (key : nat -> Z) l, l <> [] -> exists m, In m l /\ forall x, In x l -> (key x <= key m)%Z.
Proof.
  intros key l. induction l as [|a l IH]; [contradiction|]. intros _. destruct l as [|b l]; [exists a; split; [left; reflexivity|intros x [<-|[]]; lia]|].
  destruct IH as (m & I & M); [discriminate|]. destruct (Z_le_gt_dec (key a) (key m)) as [L|G].
  - exists m. split; [right; exact I|]. intros x [<-|Ix]; [exact L|apply M; exact Ix].
  - exists a. split; [left; reflexivity|]. intros x [<-|Ix]; [lia|]. specialize (M x Ix). lia.
Qed.

Section Best2.
  Variable val : Z -> Q.
  Variable inf : Z -> bool.
  Variable neg1 : Z.
  Variable D : nat -> nat -> Z.
  Variable imp : impurity.

  Lemma split_filter : forall (P : nat -> bool) L R buf, Permutation (L ++ R) buf -> (forall x, In x L -> P x = true) -> (forall x, In x R -> P x = false) ->
    Permutation L (filter P buf) /\ Permutation R (filter (fun x => negb (P x)) buf).
  Proof.
    intros P L R buf Pm HL HR. split.
    - rewrite <- (filter_perm _ P _ _ Pm), filter_app, (filter_all _ P L HL), (filter_none P R HR), app_nil_r. reflexivity.
    - rewrite <- (filter_perm _ (fun x => negb (P x)) _ _ Pm), filter_app. rewrite (filter_none (fun x => negb (P x)) L), (filter_all _ (fun x => negb (P x)) R); [reflexivity| |]; intros x I; [rewrite (HR x I)|rewrite (HL x I)]; reflexivity.
  Qed.

  (** Every split of a feature is found at a boundary of the sorted rows. *)
  Lemma split_boundary : forall symbolic var buf L R, by_key (fun r => D r var) buf -> Permutation (L ++ R) buf -> L <> [] -> R <> [] -> separated_by D symbolic var L R ->
    exists p r, boundary D symbolic var buf p /\ nth_error buf p = Some r /\ Permutation L (left_rows D var symbolic buf p r).
  Proof.
    intros symbolic var buf L R B Pm NL NR Sep. unfold separated_by in Sep. destruct symbolic.
    - destruct Sep as (v & HL & HR). set (Ple := fun x => Z.leb (D x var) v). set (Plt := fun x => Z.ltb (D x var) v).
      set (k := length (filter Ple buf)). assert (Ll : exists l, In l buf /\ D l var = v). { destruct L as [|l L]; [contradiction|]. exists l. split; [apply (Permutation_in l Pm); left; reflexivity|apply HL; left; reflexivity]. }
      destruct Ll as (l & Il & El).
      assert (Nle : forall i r, nth_error buf i = Some r -> (i < k <-> Ple r = true)). { apply sorted_split_nth with (key := fun r => D r var); [exact B|]. unfold Ple. intros a b _ _ Ha Hb. apply Z.leb_le in Ha. apply Z.leb_gt in Hb. lia. }
      assert (Nlt : forall i r, nth_error buf i = Some r -> (i < length (filter Plt buf) <-> Plt r = true)). { apply sorted_split_nth with (key := fun r => D r var); [exact B|]. unfold Plt. intros a b _ _ Ha Hb. apply Z.ltb_lt in Ha. apply Z.ltb_ge in Hb. lia. }
      apply In_nth_error in Il. destruct Il as [i0 E0].
      assert (i0 < k) as Hi by (apply (Nle i0 l E0); unfold Ple; apply Z.leb_le; lia).
      assert (length (filter Plt buf) <= i0) as Hj. { destruct (le_lt_dec (length (filter Plt buf)) i0) as [H|H]; [exact H|]. apply (Nlt i0 l E0) in H. unfold Plt in H. apply Z.ltb_lt in H. lia. }
      assert (Kl : k <= length buf). { unfold k. rewrite (sorted_split Ple (fun r => D r var) buf B) at 2; [rewrite app_length; lia|]. unfold Ple. intros a b _ _ Ha Hb. apply Z.leb_le in Ha. apply Z.leb_gt in Hb. lia. }
      destruct (nth_error buf (k - 1)) as [r|] eqn:Er; [|apply nth_error_None in Er; lia].
      assert (Dr : D r var = v). { pose proof (proj1 (Nle _ _ Er) ltac:(lia)) as H1. unfold Ple in H1. apply Z.leb_le in H1. destruct (Plt r) eqn:H2; [apply (Nlt _ _ Er) in H2; lia|]. unfold Plt in H2. apply Z.ltb_ge in H2. lia. }
      exists (k - 1), r. split; [|split; [exact Er|]].
      + exists r. split; [exact Er|]. destruct (nth_error buf (S (k - 1))) as [r'|] eqn:Er'.
        * right. exists r'. split; [reflexivity|]. intro Eq. assert (Ple r' = true) as H1 by (unfold Ple; apply Z.leb_le; lia). apply (Nle _ _ Er') in H1. lia.
        * left. split; [reflexivity|]. apply nth_error_None in Er'. lia.
      + unfold left_rows. apply (split_filter (same D var r) L R buf Pm); unfold same; intros x I; [apply Z.eqb_eq; rewrite Dr; apply HL; exact I|apply Z.eqb_neq; rewrite Dr; apply HR; exact I].
    - destruct (max_key (fun r => D r var) L NL) as (m & Im & M). cbv beta in M. set (P := fun x => Z.leb (D x var) (D m var)).
      destruct (split_filter P L R buf Pm) as [PL PR]. { unfold P. intros x I. apply Z.leb_le, M, I. } { unfold P. intros x I. apply Z.leb_gt. apply Sep; assumption. }
      assert (Dn : forall a b, In a buf -> In b buf -> P a = true -> P b = false -> (D a var < D b var)%Z). { unfold P. intros a b _ _ Ha Hb. apply Z.leb_le in Ha. apply Z.leb_gt in Hb. lia. }
      pose proof (sorted_split P (fun r => D r var) buf B Dn) as Sp. pose proof (sorted_split_nth P (fun r => D r var) buf B Dn) as Nth.
      pose proof (Permutation_length PL) as LL. pose proof (Permutation_length PR) as LR. pose proof (Permutation_length Pm) as LA. rewrite app_length in LA.
      assert (0 < length L /\ 0 < length R) as [GL GR] by (destruct L, R; try contradiction; cbn; lia).
      destruct (nth_error buf (length L - 1)) as [r|] eqn:Er; [|apply nth_error_None in Er; lia].
      destruct (nth_error buf (S (length L - 1))) as [r'|] eqn:Er'; [|apply nth_error_None in Er'; lia].
      exists (length L - 1), r. split; [|split; [exact Er|]].
      + exists r. split; [exact Er|]. right. exists r'. split; [exact Er'|]. pose proof (proj1 (Nth _ _ Er) ltac:(lia)) as H1. destruct (P r') eqn:H2; [apply (Nth _ _ Er') in H2; lia|].
        unfold P in H1, H2. apply Z.leb_le in H1. apply Z.leb_gt in H2. lia.
      + unfold left_rows. replace (S (length L - 1)) with (length (filter P buf)) by lia. assert (firstn (length (filter P buf)) buf = filter P buf) as ->; [|exact PL].
        transitivity (firstn (length (filter P buf)) (filter P buf ++ filter (fun r0 => negb (P r0)) buf)); [f_equal; exact Sp|]. rewrite firstn_app, Nat.sub_diag, firstn_all. cbn [firstn]. apply app_nil_r.
  Qed.

  (** Conversely, a boundary yields a split. *)
  Lemma boundary_split : forall symbolic var buf p r, by_key (fun r => D r var) buf -> boundary D symbolic var buf p -> nth_error buf p = Some r ->
    (symbolic = true -> exists x y, In x buf /\ In y buf /\ D x var <> D y var) ->
    exists R, Permutation (left_rows D var symbolic buf p r ++ R) buf /\ left_rows D var symbolic buf p r <> [] /\ R <> [] /\ separated_by D symbolic var (left_rows D var symbolic buf p r) R.
  Proof.
    intros symbolic var buf p r B Bd Er Diff. destruct symbolic.
    - exists (filter (fun x => negb (same D var r x)) buf). cbn [left_rows]. split; [|split; [|split]].
      + clear. induction buf as [|a buf IH]; [constructor|]. cbn [filter]. destruct (same D var r a); cbn [negb app]; [constructor; exact IH|]. rewrite <- Permutation_middle. constructor. exact IH.
      + intro Z0. assert (In r []) as []. rewrite <- Z0. apply filter_In. split; [eapply nth_error_In; exact Er|unfold same; apply Z.eqb_refl].
      + intro Z0. destruct (Diff eq_refl) as (x & y & Ix & Iy & Ne).
        assert (K : forall z, In z buf -> D z var = D r var). { intros z Iz. destruct (same D var r z) eqn:E; [apply Z.eqb_eq; exact E|]. exfalso. assert (In z []) as []. rewrite <- Z0. apply filter_In. rewrite E. auto. }
        apply Ne. rewrite (K x Ix), (K y Iy). reflexivity.
      + exists (D r var). split; intros x I; apply filter_In in I; destruct I as [_ I]; unfold same in I; [apply Z.eqb_eq; exact I|]. apply negb_true_iff in I. apply Z.eqb_neq. exact I.
    - destruct Bd as (r0 & E0 & [[Bad _]|(r' & Er' & Ne)]); [discriminate|]. rewrite Er in E0. inversion E0; subst r0. exists (skipn (S p) buf). unfold left_rows. rewrite firstn_skipn. split; [reflexivity|].
      assert (S p < length buf) as Lt by (apply nth_error_Some; congruence). split; [|split].
      + intro Z0. apply (f_equal (@length nat)) in Z0. rewrite firstn_length in Z0. cbn [length] in Z0. lia.
      + intro Z0. apply (f_equal (@length nat)) in Z0. rewrite skipn_length in Z0. cbn [length] in Z0. lia.
      + intros a b Ia Ib. apply In_nth_error in Ia. destruct Ia as [i Ei]. apply In_nth_error in Ib. destruct Ib as [j Ej].
        assert (Li : i < S p). { assert (i < length (firstn (S p) buf)) by (apply nth_error_Some; congruence). rewrite firstn_length in H. lia. }
        assert (Ei' : nth_error buf i = Some a). { rewrite <- (firstn_skipn (S p) buf), nth_error_app1; [exact Ei|]. rewrite firstn_length. lia. }
        assert (Ej' : nth_error buf (S p + j) = Some b). { rewrite <- (firstn_skipn (S p) buf), nth_error_app2; rewrite firstn_length, Nat.min_l by lia; [|lia]. replace (S p + j - S p) with j by lia. exact Ej. }
        pose proof (B i p a r ltac:(lia) Ei' Er). pose proof (B p (S p) r r' ltac:(lia) Er Er'). pose proof (B (S p) (S p + j) r' b ltac:(lia) Er' Ej'). cbv beta in *. lia.
  Qed.

  (** ** The improvement of a split depends only on the sets of rows *)
  Lemma pop_var_perm : forall c l l', Permutation l l' -> (pop_var val D c l == pop_var val D c l')%Q.
  Proof.
    intros c l l' P. unfold pop_var, pop_sum. rewrite (Permutation_length P). apply Qdiv_comp; [|reflexivity].
    assert (M : (pop_mean val D c l == pop_mean val D c l')%Q). { unfold pop_mean, pop_sum. rewrite (Permutation_length P). apply Qdiv_comp; [|reflexivity]. apply Qsum_perm, Permutation_map, P. }
    rewrite (Qsum_perm _ _ (Permutation_map _ P)). apply Qsum_map_ext. intros x _. rewrite M. reflexivity.
  Qed.
  Lemma mean_gini_perm : forall l l', Permutation l l' -> (mean_gini val D imp l == mean_gini val D imp l')%Q.
  Proof.
    intros l l' P. unfold mean_gini. apply Qdiv_comp; [|reflexivity]. apply Qsum_map_ext. intros i _. unfold target_gini. destruct (Nat.eqb (symbol_count imp i) 1); [reflexivity|]. cbv zeta.
    assert (G : (gini val D (symbol_count imp i) (sym_var imp i) l == gini val D (symbol_count imp i) (sym_var imp i) l')%Q); [|destruct (inverted imp i); rewrite G; reflexivity].
    unfold gini. apply Qdiv_comp; [|reflexivity]. apply Qplus_comp; [reflexivity|]. apply Qopp_comp. apply Qsum_map_ext. intros v _. unfold freq. rewrite (Permutation_length P), (Permutation_length (filter_perm _ _ _ _ P)). reflexivity.
  Qed.
  Lemma split_improvement_perm : forall var rows L L' R R', Permutation L L' -> Permutation R R' -> (split_improvement val D imp var rows L R == split_improvement val D imp var rows L' R')%Q.
  Proof.
    intros var rows L L' R R' PL PR. unfold split_improvement. apply Qplus_comp.
    - destruct (has_numeric_vars imp var); [|reflexivity]. apply Qmult_comp; [|reflexivity]. unfold numeric_improvement. rewrite (Permutation_length PL), (Permutation_length PR). apply var_improvements_ext. intros i _; split; [reflexivity|]; split; apply pop_var_perm; assumption.
    - destruct (_ && _); [|reflexivity]. apply Qmult_comp; [|reflexivity]. unfold symbolic_improvement. rewrite (Permutation_length PL), (Permutation_length PR), (mean_gini_perm L L' PL), (mean_gini_perm R R' PR). reflexivity.
  Qed.

  Lemma perm_app_l : forall (L L' R R' : list nat), Permutation (L ++ R) (L' ++ R') -> Permutation L L' -> Permutation R R'.
  Proof. intros L L' R R' P PL. apply (Permutation_app_inv_l L). rewrite P. apply Permutation_app_tail. symmetry. exact PL. Qed.

  Lemma gain_legal : forall var rows L R st, Permutation (L ++ R) rows -> L <> [] -> R <> [] -> describes val D imp (block_totals val D imp rows) var (length L) L st ->
    (min_samples_leaf imp <= Qn (length L))%Q /\ (min_samples_leaf imp <= Qn (length R))%Q <-> gain_of imp (block_totals val D imp rows) var st <> None.
  Proof.
    intros var rows L R st P NL NR De. unfold gain_of. destruct De as (-> & _). cbn [block_totals n_samples].
    assert (length rows - length L = length R) as -> by (rewrite <- (Permutation_length P), app_length; lia). unfold Qltb. destruct (Qltb_spec (Qn (length L)) (min_samples_leaf imp)) as [H|H], (Qltb_spec (Qn (length R)) (min_samples_leaf imp)) as [H'|H']; cbn [orb]; split; intro K; try discriminate; try (exfalso; apply K; reflexivity); try (destruct K; lra); split; lra.
  Qed.
  Lemma gain_value : forall var rows L R st g, Permutation (L ++ R) rows -> L <> [] -> R <> [] -> describes val D imp (block_totals val D imp rows) var (length L) L st ->
    gain_of imp (block_totals val D imp rows) var st = Some g -> (g == split_improvement val D imp var rows L R)%Q.
  Proof.
    intros var rows L R st g P NL NR De E. unfold gain_of in E. destruct (_ || _); [discriminate|]. inversion E; subst g. apply describes_improvement; assumption.
  Qed.

  (** ** The loop over the features *)

  Definition best_so_far (rows : list nat) (done : list nat) (s : split) : Prop :=
    Permutation rows (slice s) /\
    (forall var L R, In var done -> legal_split D imp var rows L R -> better (Some (split_improvement val D imp var rows L R)) (gain s) = false) /\
    (forall g, gain s = Some g -> exists var p r st, best_var s = Some var /\ best_split_pos s = Some p /\ In var done /\ by_key (fun r => D r var) (slice s) /\
       (exists x y, In x rows /\ In y rows /\ D x var <> D y var) /\
       boundary D (nin var (symbolic_features imp)) var (slice s) p /\ nth_error (slice s) p = Some r /\
       let L := left_rows D var (nin var (symbolic_features imp)) (slice s) p r in describes val D imp (block_totals val D imp rows) var (length L) L st /\ gain_of imp (block_totals val D imp rows) var st = Some g).

  Lemma legal_not_constant : forall var rows L R, legal_split D imp var rows L R -> exists x y, In x rows /\ In y rows /\ D x var <> D y var.
  Proof.
    intros var rows L R (P & NL & NR & Sep & _). destruct L as [|x L]; [contradiction|]. destruct R as [|y R]; [contradiction|].
    exists x, y. split; [apply (Permutation_in x P); left; reflexivity|]. split; [apply (Permutation_in y P); apply in_or_app; right; left; reflexivity|].
    unfold separated_by in Sep. destruct (nin var (symbolic_features imp)).
    - destruct Sep as (v & HL & HR). specialize (HL x (or_introl eq_refl)). specialize (HR y (or_introl eq_refl)). congruence.
    - specialize (Sep x y (or_introl eq_refl) (or_introl eq_refl)). lia.
  Qed.

  Lemma better_le : forall x b g, better (Some x) b = false -> b = Some g -> (x <= g)%Q.
  Proof. intros x b g H ->. cbn in H. unfold Qltb in H. destruct (Qltb_spec g x); [discriminate|lra]. Qed.
  Lemma better_eq : forall x x' b, (x == x')%Q -> better (Some x) b = better (Some x') b.
  Proof. intros x x' [g|] E; [|reflexivity]. cbn. unfold Qltb. destruct (Qltb_spec g x), (Qltb_spec g x'); try reflexivity; lra. Qed.

  Lemma features_best : forall rows vars done buffer s,
    (forall r v, In r rows -> In v vars -> inf (D r v) = false) ->
    (forall v, In v vars -> full_dependencies imp v) ->
    (forall v, In v vars -> nin v (symbolic_features imp) = true -> has_symbolic_vars imp = true) ->
    Permutation rows buffer -> best_so_far rows done s ->
    exists s', features_loop val inf D imp (block_totals val D imp rows) vars buffer s = Ok s' /\ best_so_far rows (done ++ vars) s'.
  Proof.
    intros rows vars. induction vars as [|var vars IH]; intros done buffer s Fin Full Guard Pb Bs; [exists s; rewrite app_nil_r; auto|].
    cbn [features_loop]. set (t := block_totals val D imp rows). set (sy := nin var (symbolic_features imp)). pose proof Bs as (Ps & Bl & Bg).
    unfold evaluate_variable. destruct (sort_rows_spec (fun r => D r var) buffer) as (buf & -> & Pf & B). cbn [bind].
    assert (Pr : Permutation rows buf) by (etransitivity; [exact Pb|exact Pf]). pose proof (Permutation_length Pr) as Ln.
    assert (Eqd : done ++ var :: vars = (done ++ [var]) ++ vars) by (rewrite <- app_assoc; reflexivity). rewrite Eqd.
    assert (Rec : forall s', best_so_far rows (done ++ [var]) s' -> exists s'', features_loop val inf D imp t vars buf s' = Ok s'' /\ best_so_far rows ((done ++ [var]) ++ vars) s'').
    { intros s' Bs'. apply IH; [intros r v I I'; apply Fin; [exact I|right; exact I']|intros; apply Full; right; assumption|intros v I; apply Guard; right; exact I|exact Pr|exact Bs']. }
    destruct (col_is_constant inf D var (slice s)) eqn:Co.
    1,2: cbn [bind fst snd]; apply Rec; cbn [better]; split; [exact Ps|]; split;
      [|intros g Eg; destruct (Bg g Eg) as (v & p & r & st & A1 & A2 & A3 & A4); exists v, p, r, st; split; [exact A1|]; split; [exact A2|]; split; [apply in_or_app; left; exact A3|exact A4]];
      intros v L R I Le; apply in_app_or in I; destruct I as [I|[<-|[]]]; [apply Bl; assumption|]; exfalso; destruct (legal_not_constant _ _ _ _ Le) as (x & y & Ix & Iy & Nxy); apply Nxy;
      apply (constant_same inf D var (slice s)); [intros r Ir; apply Fin; [apply (Permutation_in r (Permutation_sym Ps) Ir)|left; reflexivity]|congruence|apply (Permutation_in x Ps Ix)|apply (Permutation_in y Ps Iy)].
    destruct (not_constant inf D var (slice s) Co) as (Two & x0 & y0 & Ix0 & Iy0 & Nxy0). rewrite <- (Permutation_length Ps) in Two.
    destruct (eval_loop val D imp t var sy buf 0 (initial t) None None) as [b q] eqn:Ev. cbn [bind fst snd].
    assert (Df : exists x y, In x rows /\ In y rows /\ D x var <> D y var).
    { exists x0, y0. split; [apply (Permutation_in x0 (Permutation_sym Ps) Ix0)|]. split; [apply (Permutation_in y0 (Permutation_sym Ps) Iy0)|exact Nxy0]. }
    destruct (eval_best val D imp t var sy buf ltac:(unfold t; cbn [block_totals n_samples]; exact Ln) B (Full var (or_introl eq_refl)) (Guard var (or_introl eq_refl)) buf 0 (initial t) None None b q eq_refl eq_refl ltac:(right; lia)) as (_ & Hb & Hq).
    { intros r _. assert (before D var sy buf 0 r = []) as -> by (unfold before; destruct sy; reflexivity). apply initial_describes. } { exact Ev. }
    assert (New : forall L R, legal_split D imp var rows L R -> better (Some (split_improvement val D imp var rows L R)) b = false).
    { intros L R Le. pose proof Le as (P & NL & NR & Sep & M1 & M2). fold sy in Sep. assert (PLR : Permutation (L ++ R) buf) by (etransitivity; [exact P|exact Pr]).
      destruct (split_boundary sy var buf L R B PLR NL NR Sep) as (p & r & Bd & Er & PL). destruct (Hb p ltac:(lia) Bd) as (st' & (r0 & Er0 & De) & Be). rewrite Er in Er0. inversion Er0; subst r0.
      destruct (boundary_split sy var buf p r B Bd Er) as (R' & PR' & NL' & NR' & _). { intros _. exists x0, y0. split; [|split; [|exact Nxy0]]; apply (Permutation_in _ Pr), (Permutation_in _ (Permutation_sym Ps)); assumption. }
      set (L' := left_rows D var sy buf p r) in *. assert (PRR : Permutation R R') by (apply (perm_app_l L L' R R'); [etransitivity; [exact PLR|symmetry; exact PR']|exact PL]).
      assert (PR0 : Permutation (L' ++ R') rows) by (etransitivity; [exact PR'|symmetry; exact Pr]).
      pose proof (proj1 (gain_legal var rows L' R' st' PR0 NL' NR' De)) as Gl. rewrite <- (Permutation_length PL), <- (Permutation_length PRR) in Gl. specialize (Gl (conj M1 M2)). fold t in Gl.
      destruct (gain_of imp t var st') as [g|] eqn:Eg; [|contradiction]. pose proof (gain_value var rows L' R' st' g PR0 NL' NR' De Eg) as Ev'.
      rewrite (better_eq _ g); [exact Be|]. rewrite Ev'. apply split_improvement_perm; assumption. }
    apply Rec. destruct (better_max b (gain s)) as [M1 M2]. cbv zeta in M1, M2. destruct (better b (gain s)) eqn:Be.
    - split; [exact Pr|]. cbn [gain best_var best_split_pos slice]. split.
      + intros v L R I Le. apply in_app_or in I. destruct I as [I|[<-|[]]]; [eapply better_trans; [apply Bl; eassumption|exact M2]|apply New; exact Le].
      + intros g Eg. destruct Hq as [[-> _]|(p & st' & -> & _ & Bd & (r & Er & De) & Eb)]; [discriminate|]. exists var, p, r, st'. split; [reflexivity|]. split; [reflexivity|]. split; [apply in_or_app; right; left; reflexivity|]. split; [exact B|].
        split; [exact Df|]. split; [exact Bd|]. split; [exact Er|]. cbv zeta. split; [exact De|]. unfold t in Eb. congruence.
    - split; [exact Ps|]. split.
      + intros v L R I Le. apply in_app_or in I. destruct I as [I|[<-|[]]]; [apply Bl; assumption|]. eapply better_trans; [apply New; exact Le|exact M1].
      + intros g Eg. destruct (Bg g Eg) as (v & p & r & st & A1 & A2 & A3 & A4). exists v, p, r, st. split; [exact A1|]. split; [exact A2|]. split; [apply in_or_app; left; exact A3|exact A4].
  Qed.

  Theorem best_split : forall rows,
    (forall r v, In r rows -> In v (features imp) -> inf (D r v) = false) ->
    (forall r v, In r rows -> In v (symbolic_features imp) -> (neg1 < D r v)%Z) ->
    (forall v, In v (features imp) -> full_dependencies imp v) ->
    (symbolic_features imp = [] \/ has_symbolic_vars imp = true) ->
    exists s, compute_best_split val inf neg1 D imp rows = Ok s /\ Permutation rows (slice s) /\
      (forall var L R, In var (features imp) -> legal_split D imp var rows L R -> exists g, gain s = Some g /\ (split_improvement val D imp var rows L R <= g)%Q) /\
      (forall g, gain s = Some g -> exists var p, best_var s = Some var /\ best_split_pos s = Some p /\ In var (features imp) /\
         let L := firstn (S p) (slice s) in let R := skipn (S p) (slice s) in
         legal_split D imp var rows L R /\ (g == split_improvement val D imp var rows L R)%Q).
  Proof.
    intros rows Fin Neg Full Guard. unfold compute_best_split.
    destruct (features_best rows (features imp) [] rows (Split None None None rows)) as (s & E & Ps & Bl & Bg); [exact Fin|exact Full| |apply Permutation_refl| |].
    { intros v _ Sy. destruct Guard as [Z0|G]; [|exact G]. apply nin_in in Sy. rewrite Z0 in Sy. contradiction. }
    { split; [apply Permutation_refl|]. split; [intros v L R []|]. intros g Eg. discriminate. }
    unfold features in E. rewrite E. cbn [bind].
    assert (Opt : forall var L R, In var (features imp) -> legal_split D imp var rows L R -> exists g, gain s = Some g /\ (split_improvement val D imp var rows L R <= g)%Q).
    { intros var L R I Le. specialize (Bl var L R I Le). destruct (gain s) as [g|]; [|discriminate]. exists g. split; [reflexivity|]. eapply better_le; [exact Bl|reflexivity]. }
    clear Bl. destruct (gain s) as [g|] eqn:G; [|exists s; rewrite G; split; [reflexivity|]; split; [exact Ps|]; split; [exact Opt|]; intros g Eg; discriminate].
    destruct (Bg g eq_refl) as (var & p & r & st & V & Po & Iv & B & Df & Bd & Er & Rest). cbv zeta in Rest. cbn [app] in Iv. clear Bg. rewrite V, Po.
    assert (Dfs : exists x y, In x (slice s) /\ In y (slice s) /\ D x var <> D y var).
    { destruct Df as (x & y & Ix & Iy & Nxy). exists x, y. split; [apply (Permutation_in x Ps Ix)|]. split; [apply (Permutation_in y Ps Iy)|exact Nxy]. }
    destruct Rest as [De Eg].
    destruct (boundary_split _ var (slice s) p r B Bd Er (fun _ => Dfs)) as (R & PR & NL & NR & Sep).
    set (L := left_rows D var (nin var (symbolic_features imp)) (slice s) p r) in *.
    assert (PLR : Permutation (L ++ R) rows) by (etransitivity; [exact PR|symmetry; exact Ps]).
    pose proof (gain_value var rows L R st g PLR NL NR De Eg) as Vg.
    destruct (proj2 (gain_legal var rows L R st PLR NL NR De) ltac:(congruence)) as [M1 M2].
    (* any slice whose first S q rows are a permutation of L will do *)
    assert (Fin' : forall (sl : list nat) q, Permutation rows sl -> Permutation L (firstn (S q) sl) ->
      legal_split D imp var rows (firstn (S q) sl) (skipn (S q) sl) /\ (g == split_improvement val D imp var rows (firstn (S q) sl) (skipn (S q) sl))%Q).
    { intros sl q Psl PLq. assert (P2 : Permutation (firstn (S q) sl ++ skipn (S q) sl) rows) by (rewrite firstn_skipn; symmetry; exact Psl).
      assert (PRq : Permutation R (skipn (S q) sl)) by (apply (perm_app_l L (firstn (S q) sl)); [etransitivity; [exact PLR|symmetry; exact P2]|exact PLq]).
      split; [|rewrite Vg; apply split_improvement_perm; assumption]. split; [exact P2|]. split; [intro Z0; rewrite Z0 in PLq; apply Permutation_sym, Permutation_nil in PLq; contradiction|].
      split; [intro Z0; rewrite Z0 in PRq; apply Permutation_sym, Permutation_nil in PRq; contradiction|]. rewrite <- (Permutation_length PLq), <- (Permutation_length PRq). split; [|split; [exact M1|exact M2]].
      assert (IL : forall x, In x (firstn (S q) sl) -> In x L) by (intros x I; apply (Permutation_in x (Permutation_sym PLq) I)).
      assert (IR : forall x, In x (skipn (S q) sl) -> In x R) by (intros x I; apply (Permutation_in x (Permutation_sym PRq) I)).
      unfold separated_by in *. destruct (nin var (symbolic_features imp)).
      - destruct Sep as (v & HL & HR). exists v. split; auto.
      - intros l x Il Ix. apply Sep; auto. }
    destruct (nin var (symbolic_features imp)) eqn:Sy.
    - rewrite Er. unfold move_best_values_to_front. set (key := fun r0 : nat => if (D r0 var =? D r var)%Z then neg1 else D r0 var).
      destruct (sort_rows_spec key (slice s)) as (rows' & E' & P' & B'). rewrite E'. cbn [bind fst snd].
      set (Pv := fun r0 : nat => (D r0 var =? D r var)%Z). assert (Ls : length (filter Pv (slice s)) = length (filter Pv rows')) by (apply Permutation_length, filter_perm, P').
      assert (Ir : In r (slice s)) by (eapply nth_error_In; exact Er).
      assert (Pos : length (filter Pv (slice s)) <> 0). { intro Z0. apply length_zero_iff_nil in Z0. assert (In r []) as []. rewrite <- Z0. apply filter_In. split; [exact Ir|apply Z.eqb_refl]. }
      fold Pv. destruct (length (filter Pv (slice s))) as [|k] eqn:Hk; [contradiction|].
      assert (Pr' : Permutation rows rows') by (etransitivity; [exact Ps|exact P']).
      eexists. split; [reflexivity|]. cbn [slice gain best_var best_split_pos]. split; [exact Pr'|]. split; [exact Opt|]. intros g' Eg'. inversion Eg'; subst g'. exists var, k. split; [reflexivity|]. split; [reflexivity|]. split; [exact Iv|].
      cbv zeta. apply Fin'; [exact Pr'|].
      assert (Fr : firstn (S k) rows' = filter Pv rows').
      { rewrite Ls. pose proof (sorted_split Pv key rows' B') as Sp. specialize (Sp ltac:(intros a b Ia Ib Pa Pb; unfold key, Pv in *; rewrite Pa, Pb; apply Neg; [apply (Permutation_in b (Permutation_sym Pr') Ib)|apply nin_in; exact Sy])).
        transitivity (firstn (length (filter Pv rows')) (filter Pv rows' ++ filter (fun r0 => negb (Pv r0)) rows')); [f_equal; exact Sp|]. rewrite firstn_app, Nat.sub_diag, firstn_all. cbn [firstn]. apply app_nil_r. }
      rewrite Fr. unfold L, left_rows. etransitivity; [apply filter_perm; exact P'|]. assert (filter (same D var r) rows' = filter Pv rows') as ->; [|reflexivity]. apply filter_ext. intro a. unfold same, Pv. first [reflexivity|apply Z.eqb_sym].
    - exists s. split; [reflexivity|]. rewrite G. split; [exact Ps|]. split; [exact Opt|]. intros g' Eg'. inversion Eg'; subst g'. exists var, p. split; [exact V|]. split; [exact Po|]. split; [exact Iv|]. cbv zeta. apply Fin'; [exact Ps|]. reflexivity.
  Qed.
End Best2.
