(** A concrete tree: [X] with three labels, [Y] an integer 0..1; the root splits
    on [X], its right child on [Y]. *)
Require Import QArith Lqa ZArith Bool List Arith Lia.
Require Import Verif.Base Verif.NumBase Verif.TreeModel Verif.TreeSpec Verif.TreeDiscrete Verif.TreeWorlds.
Import ListNotations.
Open Scope Q_scope.

Definition X3 : dom := SymDom [Some 0%Z; Some 1%Z; Some 2%Z].
Definition Y2 : dom := IntDom 0 1.
Definition ex_doms : list dom := [X3; Y2].
Definition ex_root : inner discrete := Inner (F := discrete) 0 None 0%nat [[0%nat]; [1; 2]%nat] [Some 1%nat; Some 2%nat] 8 [].
Definition ex_right : inner discrete := Inner (F := discrete) 2 (Some 0%nat) 1%nat [[0%nat]; [1%nat]] [Some 3%nat; Some 4%nat] 4 [(0, [1; 2])%nat].
Definition ex_l1 : leaf discrete := Leaf (F := discrete) 1 (Some 0%nat) (1 # 2) 4 [DDist X3 [1; 0; 0]; DDist Y2 [1 # 3; 2 # 3]] [(0, [0])%nat].
Definition ex_l3 : leaf discrete := Leaf (F := discrete) 3 (Some 2%nat) (1 # 4) 2 [DDist X3 [0; 1 # 2; 1 # 2]; DDist Y2 [1; 0]] [(0, [1; 2])%nat; (1, [0])%nat].
Definition ex_l4 : leaf discrete := Leaf (F := discrete) 4 (Some 2%nat) (1 # 4) 2 [DDist X3 [0; 1 # 4; 3 # 4]; DDist Y2 [0; 1]] [(0, [1; 2])%nat; (1, [1])%nat].
Definition ex : jpt discrete := JPT (F := discrete) 2 (dfull ex_doms) [ex_root; ex_right] [ex_l1; ex_l3; ex_l4] (Some 0%nat) [].

Ltac cases H := repeat match type of H with _ \/ _ => destruct H as [H|H] end; try contradiction.

Lemma ex_tree : tree_ok ex.
Proof.
  constructor.
  - cbn. repeat constructor; cbn; intuition discriminate.
  - exists 0%nat, (NInner ex_root). repeat split.
  - intros n I. cbn in I. cases I; subst n; reflexivity.
  - intros n I. cbn in I. cases I; subst n; cbn; repeat constructor; cbn; intuition discriminate.
  - intros n k c s I Ec Es. cbn in I. cases I; subst n; (destruct k as [|[|k]]; cbn in Ec, Es; [| |destruct k; discriminate]); inversion Ec; inversion Es; subst; eexists _, _; repeat split.
  - intros i m G. destruct i as [|[|[|[|[|i]]]]]; cbn in G; try discriminate; inversion G; subst m; cbn; try reflexivity; eexists; split; try reflexivity; cbn; tauto.
Qed.

Ltac wf_leaf_tac :=
  constructor;
  [ cbn; repeat (apply Forall2_cons; [split; [reflexivity|]; split; [reflexivity|]; split; [repeat constructor; cbn; lra|cbn; lra]|]); apply Forall2_nil
  | cbn; lra
  | cbn; intros v s I; cases I; inversion I; subst; (split; [cbn; lia|]); intros x Ix; cbn in Ix |- *; cases Ix; lia
  | cbn; intros v s d x I E N; cases I; inversion I; subst; cbn in E; inversion E; subst; cbn in *; destruct x as [|[|[|x]]]; cbn; try reflexivity; try (destruct x; reflexivity); exfalso; apply N; tauto ].
Lemma ex_wf : wf_tree ex_doms ex.
Proof.
  constructor; [reflexivity|reflexivity|apply ex_tree|]. repeat (apply Forall_cons; [wf_leaf_tac|]). apply Forall_nil.
Qed.
