(** [conditional_jpt]: what the exploration loop leaves behind. *)
Require Import QArith Qabs Lqa Bool List Arith Lia Permutation.
Require Import Verif.Base Verif.NumBase Verif.UtilModel Verif.TreeModel Verif.TreeSpec Verif.TreeApply Verif.TreeInfer Verif.TreePosterior Verif.TreeCond.
Import ListNotations.
Open Scope Q_scope.

Section Trees.
  Context {F : family}.

  Lemma filter_none : forall A (f : A -> bool) l, (forall x, In x l -> f x = true) -> filter f l = l.
  Proof. intros A f l H. induction l as [|x l IH]; [reflexivity|]. cbn. rewrite (H x (or_introl eq_refl)). f_equal. apply IH. intros y I. apply H. right; exact I. Qed.

  Lemma del_leaf_inner : forall (J : jpt F) i n, tree_ok J -> get_node J i = Some (NInner n) -> del_leaf i (leaves J) = leaves J.
  Proof.
    intros J i n T G. unfold del_leaf. apply filter_none. intros l I. destruct (Nat.eqb_spec (l_idx l) i) as [E|E]; [|reflexivity].
    pose proof (in_node_leaf J (ids J T) l I) as A. rewrite E, G in A. discriminate.
  Qed.
  Lemma del_inner_leaf : forall (J : jpt F) i l, tree_ok J -> get_node J i = Some (NLeaf l) -> del_inner i (innernodes J) = innernodes J.
  Proof.
    intros J i l T G. unfold del_inner. apply filter_none. intros n I. destruct (Nat.eqb_spec (i_idx n) i) as [E|E]; [|reflexivity].
    pose proof (in_node_inner J (ids J T) n I) as A. rewrite E, G in A. discriminate.
  Qed.

  Lemma get_node_inner : forall (J : jpt F) i n, get_node J i = Some (NInner n) <-> get_inner J i = Some n.
  Proof.
    intros J i n. unfold get_node. destruct (get_inner J i); [split; congruence|]. destruct (get_leaf J i); split; congruence.
  Qed.

  (** Unlinking a childless node that has a parent. *)
  Lemma unlink_spec : forall (J : jpt F) i m p rest, tree_ok J -> get_node J i = Some m -> n_parent m = Some p ->
    match m with NInner n => i_children n = [] | NLeaf _ => True end ->
    exists k np, get_inner J p = Some np /\ nth_error (i_children np) k = Some (Some i) /\
      unlink (with_nodes J (del_inner i (innernodes J)) (del_leaf i (leaves J))) i (Some p) rest = Ok (removed J i p k np, rest ++ [p]).
  Proof.
    intros J i m p rest T G Pi Ch. pose proof (parent_ok J T i m G) as Pa. rewrite Pi in Pa. destruct Pa as (np & Gp & Ic).
    destruct (child_index_in _ _ Ic) as [k Ek]. exists k, np. split; [exact Gp|]. pose proof (child_index_some _ _ _ Ek) as Ck. split; [exact Ck|].
    pose proof (p_ne_i J T i p k m np G Ch Pi Gp Ck) as Npi. destruct (get_inner_some J p np Gp) as [Inp Enp].
    unfold unlink. unfold get_inner at 1. cbn [innernodes with_nodes]. unfold del_inner at 1. rewrite find_del.
    destruct (Nat.eqb_spec p i) as [|_]; [contradiction|]. change (find (fun y => Nat.eqb (i_idx y) p) (innernodes J)) with (get_inner J p). rewrite Gp, Ek. cbn [bind].
    cbn [with_nodes root]. destruct (root_ok J T) as (r & mr & Er & Gr & Pr & _). rewrite Er.
    destruct (Nat.eqb_spec r i) as [->|_]; [rewrite G in Gr; inversion Gr; subst; congruence|].
    f_equal. apply f_equal2; [|reflexivity]. unfold removed, with_nodes. cbn [n_vars full innernodes leaves root priors]. f_equal.
    unfold set_inner. apply map_ext_in. intros n I. cbn [i_idx]. unfold cut_if, cut. rewrite Enp. reflexivity.
  Qed.

  (** Removing the root of a tree that consists of the root. *)
  Lemma unlink_root : forall (J : jpt F) r m rest, tree_ok J -> root J = Some r -> get_node J r = Some m ->
    match m with NInner n => i_children n = [] | NLeaf _ => True end ->
    unlink (with_nodes J (del_inner r (innernodes J)) (del_leaf r (leaves J))) r (n_parent m) rest = Ok (with_root (with_nodes J [] []) None, rest).
  Proof.
    intros J r m rest T Er G Ch.
    assert (n_parent m = None) as ->. { destruct (root_ok J T) as (r' & m' & Er' & Gr' & Pr & _). rewrite Er in Er'. inversion Er'; subst. rewrite G in Gr'. inversion Gr'; subst. exact Pr. }
    unfold unlink. cbn [bind root with_nodes]. rewrite Er, Nat.eqb_refl. f_equal. f_equal.
    assert (del_inner r (innernodes J) = []) as ->.
    { unfold del_inner. apply incl_l_nil. intros n I. apply filter_In in I. destruct I as [I B].
      rewrite (root_only J r m T Er G Ch (i_idx n) (NInner n) (in_node_inner J (ids J T) n I)), Nat.eqb_refl in B. discriminate. }
    assert (del_leaf r (leaves J) = []) as ->.
    { unfold del_leaf. apply incl_l_nil. intros n I. apply filter_In in I. destruct I as [I B].
      rewrite (root_only J r m T Er G Ch (l_idx n) (NLeaf n) (in_node_leaf J (ids J T) n I)), Nat.eqb_refl in B. discriminate. }
    reflexivity.
  Qed.

  Definition emptied (J : jpt F) : Prop := innernodes J = [] /\ leaves J = [] /\ root J = None.

  Lemma emptied_node : forall J i, emptied J -> get_node J i = None.
  Proof. intros J i (A & B & _). unfold get_node, get_inner, get_leaf. rewrite A, B. reflexivity. Qed.

  (** The invariant of the clean-up phase: [B] are the queued parents. *)
  Record cleaning (B : list nat) (J : jpt F) : Prop := Cleaning {
    cl_tree : tree_ok J;
    cl_two : forall n, In n (innernodes J) -> (length (i_children n) <= 2)%nat;
    cl_empty : forall n, In n (innernodes J) -> i_children n = [] -> In (i_idx n) B;
    cl_one : forall n, In n (innernodes J) -> In (i_idx n) B -> (length (i_children n) <= 1)%nat;
    cl_leaf : forall b l, In b B -> get_node J b <> Some (NLeaf l)
  }.

  Lemma removed_cleaning : forall (J : jpt F) i m p k np B, cleaning (i :: B) J \/ cleaning B J /\ (exists l, m = NLeaf l) -> get_node J i = Some m -> n_parent m = Some p ->
    match m with NInner n => i_children n = [] | NLeaf _ => True end ->
    get_inner J p = Some np -> nth_error (i_children np) k = Some (Some i) -> cleaning (B ++ [p]) (removed J i p k np).
  Proof.
    intros J i m p k np B C G Pi Ch Gp Ck.
    assert (T : tree_ok J) by (destruct C as [C|[C _]]; apply (cl_tree _ _ C)).
    assert (C2 : forall n, In n (innernodes J) -> (length (i_children n) <= 2)%nat) by (destruct C as [C|[C _]]; apply (cl_two _ _ C)).
    assert (CE : forall n, In n (innernodes J) -> i_idx n <> i -> i_children n = [] -> In (i_idx n) B).
    { intros n I N E. destruct C as [C|[C _]]; pose proof (cl_empty _ _ C n I E) as H; [destruct H; [congruence|assumption]|assumption]. }
    assert (C1 : forall n, In n (innernodes J) -> In (i_idx n) B -> (length (i_children n) <= 1)%nat).
    { intros n I Ib. destruct C as [C|[C _]]; apply (cl_one _ _ C n I); [right|]; exact Ib. }
    assert (CL : forall b l, In b B -> get_node J b <> Some (NLeaf l)).
    { intros b l Ib. destruct C as [C|[C _]]; apply (cl_leaf _ _ C b l); [right|]; exact Ib. }
    destruct (get_inner_some J p np Gp) as [Inp Enp].
    assert (Kl : (k < length (i_children np))%nat) by (apply nth_error_Some; congruence).
    assert (Len : (length (del_nth k (i_children np)) <= 1)%nat). { pose proof (del_nth_length _ k _ Kl). pose proof (C2 np Inp). lia. }
    assert (Cut : forall n, In n (innernodes J) -> i_children (cut_if p k np n) = if Nat.eqb (i_idx n) p then del_nth k (i_children np) else i_children n).
    { intros n I. unfold cut_if. destruct (Nat.eqb (i_idx n) p); reflexivity. }
    constructor.
    - apply (removed_ok J T i p k m np); assumption.
    - intros n' I. apply removed_in in I. destruct I as (n & I & Ni & ->). rewrite (Cut n I). destruct (Nat.eqb (i_idx n) p); [lia|apply C2, I].
    - intros n' I E. apply removed_in in I. destruct I as (n & I & Ni & ->). rewrite (cut_if_idx J p k np Gp). rewrite (Cut n I) in E. apply in_or_app.
      destruct (Nat.eqb_spec (i_idx n) p) as [Ep|Ep]; [right; left; auto|left; apply CE; assumption].
    - intros n' I Ib. apply removed_in in I. destruct I as (n & I & Ni & ->). rewrite (cut_if_idx J p k np Gp) in Ib. rewrite (Cut n I).
      destruct (Nat.eqb_spec (i_idx n) p) as [Ep|Ep]; [exact Len|]. apply C1; [exact I|]. apply in_app_or in Ib. destruct Ib as [Ib|[Ib|[]]]; [exact Ib|congruence].
    - intros b l Ib Gb. rewrite (removed_node J i p k np Gp) in Gb. destruct (Nat.eqb b i); [discriminate|].
      destruct (get_node J b) as [x|] eqn:Gx; [|discriminate]. destruct x as [n|l0]; [discriminate|]. inversion Gb; subst l0. apply in_app_or in Ib.
      destruct Ib as [Ib|[<-|[]]]; [exact (CL b l Ib Gx)|]. apply get_node_inner in Gp. congruence.
  Qed.

  Definition childful (J : jpt F) : Prop := forall n, In n (innernodes J) -> i_children n <> [].
  Definition same_frame (J J' : jpt F) : Prop := exists ns ls r, J' = JPT (n_vars J) (full J) ns ls r (priors J).
  Lemma same_refl : forall J : jpt F, same_frame J J.
  Proof. intros [nv fl ns ls r ps]. exists ns, ls, r. reflexivity. Qed.

  Lemma emptied_loop : forall e (J : jpt F) B fuel, emptied J -> (length B <= fuel)%nat -> cond_loop fuel e J B = Ok J.
  Proof.
    intros e J B. induction B as [|b B IH]; intros fuel E H; [destruct fuel; reflexivity|]. destruct fuel as [|fuel]; [cbn in H; lia|].
    cbn [cond_loop]. rewrite (emptied_node J b E). apply IH; [exact E|cbn in H; lia].
  Qed.

  Lemma clean_loop : forall e fuel B (J : jpt F), cleaning B J -> (length B + length (innernodes J) <= fuel)%nat ->
    exists J', cond_loop fuel e J B = Ok J' /\ leaves J' = leaves J /\ same_frame J J' /\ (emptied J' \/ tree_ok J' /\ childful J').
  Proof.
    intros e. induction fuel as [|fuel IH]; intros B J C Bd.
    - destruct B; [|cbn in Bd; lia]. exists J. split; [reflexivity|]. split; [reflexivity|]. split; [apply same_refl|]. right. split; [apply (cl_tree _ _ C)|].
      intros n I E. exact (cl_empty _ _ C n I E).
    - destruct B as [|b B].
      + exists J. split; [reflexivity|]. split; [reflexivity|]. split; [apply same_refl|]. right. split; [apply (cl_tree _ _ C)|]. intros n I E. exact (cl_empty _ _ C n I E).
      + cbn [cond_loop]. cbn [length] in Bd. pose proof (cl_tree _ _ C) as T. destruct (get_node J b) as [[n|l]|] eqn:G.
        * destruct (node_inner_in J b n G) as [In_ En]. pose proof (cl_one _ _ C n In_) as L1. rewrite En in L1. specialize (L1 (or_introl eq_refl)).
          destruct (i_children n) as [|c [|c2 cs]] eqn:Ec; [|clear L1|cbn in L1; lia].
          -- pose proof (parent_ok J T b _ G) as Pa. cbn [n_parent] in Pa. destruct (i_parent n) as [p|] eqn:Ep.
             ++ destruct (unlink_spec J b (NInner n) p B T G Ep Ec) as (k & np & Gp & Ck & U). rewrite (del_leaf_inner J b n T G) in U. rewrite U. cbn [bind fst snd].
                pose proof (removed_cleaning J b (NInner n) p k np B (or_introl C) G Ep Ec Gp Ck) as C'.
                destruct (IH (B ++ [p]) (removed J b p k np) C') as (J' & R & Lv & Fr & K).
                { rewrite app_length. unfold removed. cbn [innernodes with_nodes length]. rewrite map_length.
                  assert (S (length (del_inner b (innernodes J))) <= length (innernodes J))%nat; [|lia].
                  unfold del_inner. clear -In_ En. induction (innernodes J) as [|x l IHl]; [destruct In_|]. cbn. destruct In_ as [->|I].
                  - rewrite En, Nat.eqb_refl. cbn. assert (length (filter (fun y => negb (Nat.eqb (i_idx y) b)) l) <= length l)%nat; [|lia].
                    clear. induction l as [|y l IH]; cbn; [lia|]. destruct (negb _); cbn; lia.
                  - specialize (IHl I). destruct (negb _); cbn; lia. }
                exists J'. split; [exact R|]. split; [|split; [exact Fr|exact K]]. rewrite Lv. unfold removed. cbn [leaves with_nodes]. apply (del_leaf_inner J b n T G).
             ++ rename Pa into Er. pose proof (unlink_root J b (NInner n) B T Er G Ec) as U. cbn [n_parent] in U. rewrite Ep in U.
                rewrite (del_leaf_inner J b n T G) in U. rewrite U. cbn [bind fst snd].
                rewrite emptied_loop; [|repeat split|lia]. eexists. split; [reflexivity|]. cbn [leaves with_root with_nodes]. split.
                { symmetry. apply incl_l_nil. intros l I. exfalso. pose proof (in_node_leaf J (ids J T) l I) as Gl.
                  pose proof (root_only J b (NInner n) T Er G Ec _ _ Gl) as A. rewrite A in Gl. congruence. }
                split; [eexists _, _, _; reflexivity|]. left. repeat split.
          -- destruct (IH B J) as (J' & R & K).
             { constructor; [exact T|apply (cl_two _ _ C)| | |].
               - intros n' I E. pose proof (cl_empty _ _ C n' I E) as [D|D]; [|exact D]. exfalso.
                 assert (n' = n). { pose proof (in_node_inner J (ids J T) n' I) as A. rewrite <- D, G in A. congruence. } subst. congruence.
               - intros n' I Ib. apply (cl_one _ _ C n' I). right; exact Ib.
               - intros b' l Ib. apply (cl_leaf _ _ C). right; exact Ib. }
             { lia. }
             exists J'. split; [exact R|exact K].
        * exfalso. exact (cl_leaf _ _ C b l (or_introl eq_refl) G).
        * destruct (IH B J) as (J' & R & K).
          { constructor; [exact T|apply (cl_two _ _ C)| | |].
            - intros n' I E. pose proof (cl_empty _ _ C n' I E) as [D|D]; [|exact D]. exfalso. pose proof (in_node_inner J (ids J T) n' I) as A. rewrite <- D, G in A. discriminate.
            - intros n' I Ib. apply (cl_one _ _ C n' I). right; exact Ib.
            - intros b' l Ib. apply (cl_leaf _ _ C). right; exact Ib. }
          { lia. }
          exists J'. split; [exact R|exact K].
  Qed.
End Trees.
