(** Trees over variables of two kinds: the sum of two families of leaf distributions and
    of their contracts; numeric and discrete variables together. *)
Require Import ZArith QArith Lqa Bool List Arith Lia.
Require Import Verif.Base Verif.NumBase Verif.UtilModel Verif.IntervalModel Verif.IntervalSpec Verif.NumericModel Verif.NumericSpec Verif.NumericProb
  Verif.TreeModel Verif.TreeSpec Verif.TreeInfer Verif.TreeDiscrete Verif.NumericTree.
Import ListNotations.
Open Scope Q_scope.

(** Every operation is dispatched on the class of the object (trees.py calls methods).
    Objects of different kinds never meet, as all of them belong to one variable; the
    model then yields the left set and raises TypeError, respectively. *)
Section Sum.
  Variables F1 F2 : family.

  Definition lefts {A B} (l : list (A + B)) : list A := flat_map (fun x => match x with inl a => [a] | inr _ => [] end) l.
  Definition rights {A B} (l : list (A + B)) : list B := flat_map (fun x => match x with inr b => [b] | inl _ => [] end) l.
  Definition on {A B C} (f : A -> C) (g : B -> C) (x : A + B) : C := match x with inl a => f a | inr b => g b end.

  Definition mixed : family := {|
    value := value F1 + value F2;
    vset := vset F1 + vset F2;
    dist := dist F1 + dist F2;
    inter := fun a b => match a, b with inl x, inl y => inl (inter F1 x y) | inr x, inr y => inr (inter F2 x y) | _, _ => a end;
    disj := fun a b => match a, b with inl x, inl y => disj F1 x y | inr x, inr y => disj F2 x y | _, _ => false end;
    single := on (fun x => inl (single F1 x)) (fun x => inr (single F2 x));
    v_in := fun s x => match s, x with inl s, inl x => v_in F1 s x | inr s, inr x => v_in F2 s x | _, _ => false end;
    d_p := fun d s => match d, s with inl d, inl s => d_p F1 d s | inr d, inr s => d_p F2 d s | _, _ => Err TypeError end;
    d_prob := fun d s => match d, s with inl d, inl s => d_prob F1 d s | inr d, inr s => d_prob F2 d s | _, _ => Err TypeError end;
    d_like := fun d s => match d, s with inl d, inl s => d_like F1 d s | inr d, inr s => d_like F2 d s | _, _ => Err TypeError end;
    d_pdf := fun d x => match d, x with inl d, inl x => d_pdf F1 d x | inr d, inr x => d_pdf F2 d x | _, _ => Err TypeError end;
    d_lik := fun d x => match d, x with inl d, inl x => d_lik F1 d x | inr d, inr x => d_lik F2 d x | _, _ => Err TypeError end;
    d_crop := fun d s => match d, s with
                         | inl d, inl s => do r <- d_crop F1 d s; Ok (inl r)
                         | inr d, inr s => do r <- d_crop F2 d s; Ok (inr r)
                         | _, _ => Err TypeError
                         end;
    d_merge := fun ds ws => match ds with
                            | inl _ :: _ => do r <- d_merge F1 (lefts ds) ws; Ok (inl r)
                            | inr _ :: _ => do r <- d_merge F2 (rights ds) ws; Ok (inr r)
                            | [] => Err IndexError
                            end;
    d_mpe := on (fun d => do sp <- d_mpe F1 d; Ok (inl (fst sp), snd sp)) (fun d => do sp <- d_mpe F2 d; Ok (inr (fst sp), snd sp));
    d_expectation := on (fun d => do x <- d_expectation F1 d; Ok (match x with inl q => inl q | inr s => inr (inl s) end))
                        (fun d => do x <- d_expectation F2 d; Ok (match x with inl q => inl q | inr s => inr (inr s) end));
    d_moment := fun k c => on (d_moment F1 k c) (d_moment F2 k c);
    d_jaccard := fun a b => match a, b with inl x, inl y => d_jaccard F1 x y | inr x, inr y => d_jaccard F2 x y | _, _ => None end
  |}.

  Variable first : var -> bool.
  Variables (f1 : var -> vset F1) (f2 : var -> vset F2).
  Definition mfull (v : var) : vset mixed := if first v then inl (f1 v) else inr (f2 v).

  Definition mixed_measured (L1 : measured f1) (L2 : measured f2) : @measured mixed mfull.
  Proof.
    refine (@Measured mixed mfull
      (fun v => on (fun d => first v = true /\ okd L1 v d) (fun d => first v = false /\ okd L2 v d))
      (fun v => on (fun s => first v = true /\ oks L1 v s) (fun s => first v = false /\ oks L2 v s))
      (fun d s => match d, s with inl d, inl s => P L1 d s | inr d, inr s => P L2 d s | _, _ => 0 end)
      _ _ _ _ _ _ _ _ _ _ _); cbn.
    - intro v. unfold mfull. destruct (first v); cbn; (split; [reflexivity|apply oks_full]).
    - intros v [a|a] [b|b] [A Ha] [B Hb]; cbn; try congruence; (split; [exact A|apply oks_inter; assumption]).
    - intros v [d|d] [s|s] [A Ha] [B Hb]; try congruence; [apply (p_ok _ L1 v)|apply (p_ok _ L2 v)]; assumption.
    - intros v [d|d] [s|s] [A Ha] [B Hb]; try congruence; [apply (P_nonneg _ L1 v)|apply (P_nonneg _ L2 v)]; assumption.
    - intros v [d|d] [A Ha]; unfold mfull; rewrite A; [apply (P_full _ L1 v)|apply (P_full _ L2 v)]; assumption.
    - intros v [d|d] [s|s] [t|t] [A Ha] [B Hb] [C Hc]; try congruence; [apply (P_le _ L1 v)|apply (P_le _ L2 v)]; assumption.
    - intros v [d|d] [s|s] [t|t] [A Ha] [B Hb] [C Hc]; try congruence; [apply (P_comm _ L1 v)|apply (P_comm _ L2 v)]; assumption.
    - intros v [d|d] [s|s] [t|t] [u|u] [A Ha] [B Hb] [C Hc] [D Hd]; try congruence; [apply (P_assoc _ L1 v)|apply (P_assoc _ L2 v)]; assumption.
    - intros v [d|d] [s|s] [t|t] [A Ha] [B Hb] [C Hc]; try congruence; [apply (P_idem _ L1 v)|apply (P_idem _ L2 v)]; assumption.
    - intros v [d|d] [s|s] [t|t] [A Ha] [B Hb] [C Hc] D; try congruence; [apply (P_disj _ L1 v)|apply (P_disj _ L2 v)]; assumption.
    - intros v [d|d] [s|s] [t|t] [A Ha] [B Hb] [C Hc] D; try congruence; [apply (P_sure _ L1 v)|apply (P_sure _ L2 v)]; assumption.
  Defined.
End Sum.
Arguments mfull {F1 F2}.
