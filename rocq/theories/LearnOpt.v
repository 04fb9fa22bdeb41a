(** The learning loop with the optimality of the split search: which splits are
    taken and when the loop stops. *)
Require Import QArith Qround ZArith Bool List Arith Permutation Lia Lqa.
Require Import Verif.Base Verif.NumBase Verif.TreeModel Verif.TreeSpec Verif.TreeApply Verif.ImpurityModel Verif.ImpuritySpec Verif.ImpurityProofs Verif.ImpurityStats Verif.ImpurityBest Verif.ImpurityBest2 Verif.LearnModel Verif.LearnSpec Verif.LearnTree Verif.LearnProofs Verif.LearnInv.
Import ListNotations.
Open Scope nat_scope.

Section Opt.
  Variable val : Z -> Q.
  Variable D : nat -> nat -> Z.
  Variable imp : impurity.

  Lemma split_improvement_rows : forall var rows rows' L L' R R', Permutation rows rows' -> Permutation L L' -> Permutation R R' ->
    (split_improvement val D imp var rows L R == split_improvement val D imp var rows' L' R')%Q.
  Proof.
    intros var rows rows' L L' R R' P PL PR. rewrite (split_improvement_perm val D imp var rows L L' R R' PL PR). unfold split_improvement. apply Qplus_comp.
    - destruct (has_numeric_vars imp var); [|reflexivity]. apply Qmult_comp; [|reflexivity]. unfold numeric_improvement. apply var_improvements_ext. intros i _. split; [apply pop_var_perm; exact P|]. split; reflexivity.
    - pose proof (mean_gini_perm val D imp rows rows' P) as M. assert (E : Qeq_bool (mean_gini val D imp rows) 0 = Qeq_bool (mean_gini val D imp rows') 0).
      { apply eq_true_iff_eq. rewrite !Qeq_bool_iff, M. reflexivity. }
      rewrite E. destruct (_ && _); [|reflexivity]. apply Qmult_comp; [|reflexivity]. unfold symbolic_improvement. rewrite (Permutation_length P), M. reflexivity.
  Qed.

  Lemma legal_split_perm : forall var rows rows' L L' R R', Permutation rows rows' -> Permutation L L' -> Permutation R R' -> legal_split D imp var rows L R -> legal_split D imp var rows' L' R'.
  Proof.
    intros var rows rows' L L' R R' P PL PR (A & B & C & S & M1 & M2). split; [rewrite <- PL, <- PR, <- P; exact A|]. split; [intros ->; apply B, Permutation_nil, Permutation_sym, PL|]. split; [intros ->; apply C, Permutation_nil, Permutation_sym, PR|].
    rewrite <- (Permutation_length PL), <- (Permutation_length PR). split; [|split; assumption]. unfold separated_by in *. destruct (nin var _).
    - destruct S as (v & S1 & S2). exists v. split; intros r I; [apply S1, (Permutation_in r (Permutation_sym PL) I)|apply S2, (Permutation_in r (Permutation_sym PR) I)].
    - intros l r Il Ir. apply S; [apply (Permutation_in l (Permutation_sym PL) Il)|apply (Permutation_in r (Permutation_sym PR) Ir)].
  Qed.

  Definition taken (v : nat) (rows L R : list nat) (g : Q) : Prop := In v (features imp) /\ legal_split D imp v rows L R /\ (g == split_improvement val D imp v rows L R)%Q /\
    forall v' L' R', In v' (features imp) -> legal_split D imp v' rows L' R' -> (split_improvement val D imp v' rows L' R' <= g)%Q.
  Definition stopped (mi : Q) (rows : list nat) : Prop := forall v L R, In v (features imp) -> legal_split D imp v rows L R -> (split_improvement val D imp v rows L R < mi)%Q.

  Lemma taken_perm : forall v rows L R g rows' L' R', Permutation rows rows' -> Permutation L L' -> Permutation R R' -> taken v rows L R g -> taken v rows' L' R' g.
  Proof.
    intros v rows L R g rows' L' R' P PL PR (A & B & C & E). split; [exact A|]. split; [apply (legal_split_perm v rows rows' L L' R R'); assumption|]. split; [rewrite C; apply split_improvement_rows; assumption|].
    intros v' L0 R0 I Le. rewrite (split_improvement_rows v' rows' rows L0 L0 R0 R0); [|symmetry; exact P|reflexivity|reflexivity]. apply E; [exact I|]. apply (legal_split_perm v' rows' rows L0 L0 R0 R0); [symmetry; exact P|reflexivity|reflexivity|exact Le].
  Qed.
  Lemma stopped_perm : forall mi rows rows', Permutation rows rows' -> stopped mi rows -> stopped mi rows'.
  Proof.
    intros mi rows rows' P H v L R I Le. rewrite (split_improvement_rows v rows' rows L L R R); [|symmetry; exact P|reflexivity|reflexivity]. apply H; [exact I|]. apply (legal_split_perm v rows' rows L L R R); [symmetry; exact P|reflexivity|reflexivity|exact Le].
  Qed.

  Section Search.
    Variable inf : Z -> bool.
    Variable neg1 : Z.
    Variable N : nat.
    Hypothesis Fin : forall r v, r < N -> In v (features imp) -> inf (D r v) = false.
    Hypothesis Neg : forall r v, r < N -> In v (symbolic_features imp) -> (neg1 < D r v)%Z.
    Hypothesis Full : forall v, In v (features imp) -> full_dependencies imp v.
    Hypothesis Guard : symbolic_features imp = [] \/ has_symbolic_vars imp = true.

    Lemma search_spec : forall rows s, incl rows (seq 0 N) -> compute_best_split val inf neg1 D imp rows = Ok s ->
      (forall var L R, In var (features imp) -> legal_split D imp var rows L R -> exists g, gain s = Some g /\ (split_improvement val D imp var rows L R <= g)%Q) /\
      (forall g, gain s = Some g -> exists var p, best_var s = Some var /\ best_split_pos s = Some p /\ In var (features imp) /\
         let L := firstn (S p) (slice s) in let R := skipn (S p) (slice s) in legal_split D imp var rows L R /\ (g == split_improvement val D imp var rows L R)%Q).
    Proof.
      intros rows s Inc E. destruct (best_split val inf neg1 D imp rows) as (s' & E' & P & Opt & Att); [| |exact Full|exact Guard|].
      - intros r v Ir Iv. apply Inc, in_seq in Ir. apply Fin; [lia|exact Iv].
      - intros r v Ir Iv. apply Inc, in_seq in Ir. apply Neg; [lia|exact Iv].
      - rewrite E in E'. injection E' as <-. auto.
    Qed.
    Lemma taken_search : forall rows s g v p, incl rows (seq 0 N) -> compute_best_split val inf neg1 D imp rows = Ok s -> gain s = Some g -> best_var s = Some v -> best_split_pos s = Some p ->
      taken v rows (firstn (S p) (slice s)) (skipn (S p) (slice s)) g.
    Proof.
      intros rows s g v p Inc E Eg Ev Ep. destruct (search_spec rows s Inc E) as [Opt Att]. destruct (Att g Eg) as (v' & p' & Ev' & Ep' & Iv & Le & Egs). rewrite Ev in Ev'. injection Ev' as <-. rewrite Ep in Ep'. injection Ep' as <-.
      split; [exact Iv|]. split; [exact Le|]. split; [exact Egs|]. intros v' L R I L0. destruct (Opt v' L R I L0) as (g' & Eg' & H). rewrite Eg in Eg'. injection Eg' as <-. exact H.
    Qed.
    Lemma stopped_search : forall mi rows s, incl rows (seq 0 N) -> compute_best_split val inf neg1 D imp rows = Ok s -> gain_allows mi (gain s) = false -> stopped mi rows.
    Proof.
      intros mi rows s Inc E G v L R I Le. destruct (search_spec rows s Inc E) as [Opt _]. destruct (Opt v L R I Le) as (g & Eg & H). rewrite Eg in G. cbn [gain_allows] in G.
      eapply Qle_lt_trans; [exact H|]. apply Qnot_le_lt. intro K. apply Qle_bool_iff in K. congruence.
    Qed.
  End Search.
End Opt.
