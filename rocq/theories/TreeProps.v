(** Properties C37-C43, C45, C55, C68 of joint probability trees.

    The statements about all families of leaf distributions are followed by their
    reading for symbolic and integer variables, where [Pr doms J q] is the sum of
    the joint density over the worlds that satisfy [q] (TreeWorlds.v). *)
Require Import QArith Lqa ZArith Bool List Arith Lia Permutation.
Require Import Verif.Base Verif.NumBase Verif.DiscreteModel Verif.TreeModel Verif.TreeSpec Verif.TreeApply Verif.TreeInfer Verif.TreePosterior Verif.TreeDiscrete Verif.TreeWorlds Verif.TreeWorldProofs Verif.TreeWorldMore Verif.TreeMpe Verif.TreePartition Verif.TreePrune2 Verif.TreeWorldPrune Verif.TreeExample.
Import ListNotations.
Open Scope Q_scope.

(** ** C37: the leaves partition the space of worlds *)

(** For every family of values: if exactly one split of every decision node
    contains the row's value, exactly one leaf path is satisfied and [encode]
    returns that leaf. *)
Theorem C37_encode_any : forall (F : family) (J : jpt F) (row : list (value F)), tree_ok J ->
  (forall n, In n (innernodes J) -> exists k s x, nth_error row (i_var n) = Some x /\ nth_error (i_splits n) k = Some s /\ v_in F s x = true /\
     forall k' s', nth_error (i_splits n) k' = Some s' -> v_in F s' x = true -> k' = k) ->
  (forall a b x, v_in F (inter F a b) x = v_in F a x && v_in F b x) ->
  (forall v x, nth_error row v = Some x -> v_in F (full J v) x = true) ->
  (forall l v s, In l (leaves J) -> In (v, s) (l_path l) -> (v < length row)%nat) ->
  let satisfied l := forall v s, In (v, s) (l_path l) -> exists x, nth_error row v = Some x /\ v_in F s x = true in
  exists l, In l (leaves J) /\ encode J row = Ok (l_idx l) /\ satisfied l /\ forall l', In l' (leaves J) -> satisfied l' -> l' = l.
Proof.
  intros F J row T Sp Cap Row V satisfied. assert (Eq : forall l, satisfied l <-> on row (l_path l)).
  { intro l. unfold satisfied, on. rewrite Forall_forall. split; [intros H [v s] I; apply (H v s I)|intros H v s I; apply (H (v, s) I)]. }
  destruct (encode_spec J row T) as (l & I & E & O & U); try assumption.
  - intros n In_. destruct (Sp n In_) as (k & s & x & Ex & Es & B & Un). exists k, s. split; [exact Es|]. split; [exists x; auto|]. intros k' s' Es' (y & Ey & By). cbn in Ey, By. rewrite Ex in Ey. inversion Ey; subst. eauto.
  - exists l. split; [exact I|]. split; [exact E|]. split; [apply Eq, O|]. intros l' I' S'. apply U; [exact I'|]. apply Eq, S'.
Qed.
Print Assumptions C37_encode_any.

Theorem C37_encode_partial : forall doms (J : jpt discrete) w, wf_tree doms J -> In w (worlds doms) ->
  (forall n, In n (innernodes J) -> (i_var n < length doms)%nat /\
     forall x, (x < n_values (domain doms (i_var n)))%nat -> exists k s, nth_error (i_splits n) k = Some s /\ In x s /\
       forall k' s', nth_error (i_splits n) k' = Some s' -> In x s' -> k' = k) ->
  exists l, In l (leaves J) /\ encode J w = Ok (l_idx l) /\ sat (l_path l) w = true /\ forall l', In l' (leaves J) -> sat (l_path l') w = true -> l' = l.
Proof. intros doms J w W I P. exact (world_encode doms J W w I P). Qed.
Print Assumptions C37_encode_partial.

Example C37_example : exists l, In l (leaves ex) /\ encode ex [2; 1]%nat = Ok (l_idx l) /\ sat (l_path l) [2; 1]%nat = true /\ forall l', In l' (leaves ex) -> sat (l_path l') [2; 1]%nat = true -> l' = l.
Proof.
  apply (C37_encode_partial ex_doms); [apply ex_wf|vm_compute; auto 10|]. intros n I0. rename I0 into I. cbn in I. cases I; subst n; (split; [cbn; lia|]); intros x Bx; cbn in Bx.
  - destruct x as [|[|[|x]]]; [exists 0%nat|exists 1%nat|exists 1%nat|lia]; eexists; (split; [reflexivity|]); (split; [cbn; tauto|]); intros [|[|k']] s' E H; cbn in E; inversion E; subst; cbn in H; cases H; try discriminate; try reflexivity; destruct k'; discriminate.
  - destruct x as [|[|x]]; [exists 0%nat|exists 1%nat|lia]; eexists; (split; [reflexivity|]); (split; [cbn; tauto|]); intros [|[|k']] s' E H; cbn in E; inversion E; subst; cbn in H; cases H; try discriminate; try reflexivity; destruct k'; discriminate.
Qed.
Example C37_example_leaf : encode ex [2; 1]%nat = Ok 4%nat.
Proof. reflexivity. Qed.

(** ** C38: apply *)

(** For every family: [apply] returns every leaf none of whose splits is disjoint
    from the query, exactly once, and no other leaf. *)
Theorem C38_apply : forall (F : family) (J : jpt F) (q : assignment F), tree_ok J -> (forall v s, In (v, s) q -> (v < n_vars J)%nat) ->
  exists ls, apply J q = Ok ls /\ NoDup (map l_idx ls) /\
    forall l, In l ls <-> In l (leaves J) /\ forall v s e, In (v, s) (l_path l) -> lookup q v = Some e -> disj F e s = false.
Proof.
  intros F J q T K. assert (Kn : known J q = true). { apply forallb_forall. intros [v s] I. apply Nat.ltb_lt. exact (K v s I). }
  destruct (apply_spec J q T Kn) as (ls & E & N & H). exists ls. split; [exact E|]. split; [exact N|]. exact H.
Qed.
Print Assumptions C38_apply.

(** In terms of worlds: a leaf is returned iff for each constraint of its path the
    query admits a value in it. *)
Theorem C38_apply_discrete : forall doms (J : jpt discrete) (q : query), wf_tree doms J -> wf_query doms q ->
  exists ls, apply J q = Ok ls /\ NoDup (map l_idx ls) /\
    forall l, In l ls <-> In l (leaves J) /\ forall v s e, In (v, s) (l_path l) -> In (v, e) q -> exists x, In x e /\ In x s.
Proof. intros doms J q W Wq. exact (world_apply doms J W q Wq). Qed.
Print Assumptions C38_apply_discrete.

Theorem C38_unknown_variable : forall (F : family) (J : jpt F) (q : assignment F), (exists v s, In (v, s) q /\ (n_vars J <= v)%nat) -> apply J q = Err TypeError.
Proof.
  intros F J q (v & s & I & G). apply apply_unknown. destruct (known J q) eqn:E; [|reflexivity]. exfalso. unfold known in E. rewrite forallb_forall in E. specialize (E (v, s) I). apply Nat.ltb_lt in E. cbn in E. lia.
Qed.
Print Assumptions C38_unknown_variable.

Definition ex_q : query := [(1, [0])%nat].
Lemma ex_q_wf : wf_query ex_doms ex_q.
Proof. split; [repeat constructor; intros []|]. intros v s [E|[]]. inversion E; subst. split; [cbn; lia|]. intros x [<-|[]]. cbn; lia. Qed.
Example C38_example : match apply ex ex_q with Ok ls => map l_idx ls = [3; 1]%nat | Err _ => False end.
Proof. reflexivity. Qed.

(** ** C39: infer *)

Theorem C39_infer_partial : forall doms (J : jpt discrete) (q e : query) fail, wf_tree doms J -> wf_query doms q -> wf_query doms e ->
  (forall v, In v (map fst q) -> ~ In v (map fst e)) ->
  (Pr doms J e == 0 -> infer J q e fail = if fail then Err ValueError else Ok None) /\
  (~ Pr doms J e == 0 -> exists r, infer J q e fail = Ok (Some r) /\ r == Pr doms J (q ++ e) / Pr doms J e /\ 0 <= r <= 1).
Proof. intros doms J q e fail W Wq We D. exact (world_infer doms J W q e fail Wq We D). Qed.
Print Assumptions C39_infer_partial.

(** What [infer] computes if query and evidence share variables: the constraints
    are treated as independent within every leaf. *)
Theorem C39_infer_shared : forall doms (J : jpt discrete) (q e : query) fail, wf_tree doms J -> wf_query doms q -> wf_query doms e -> ~ Pr doms J e == 0 ->
  exists r, infer J q e fail = Ok (Some r) /\
    r == Qsum (map (fun l : leaf discrete => l_prior l * (Pr_leaf doms (l_dists l) q * Pr_leaf doms (l_dists l) e)) (leaves J)) / Pr doms J e.
Proof. intros doms J q e fail W Wq We N. exact (proj2 (world_infer_general doms J W q e fail Wq We) N). Qed.
Print Assumptions C39_infer_shared.

Theorem C39_infer_empty : forall doms (J : jpt discrete) (e : query) fail, wf_tree doms J -> wf_query doms e -> ~ Pr doms J e == 0 ->
  exists r, infer J [] e fail = Ok (Some r) /\ r == 1.
Proof.
  intros doms J e fail W We N. assert (W0 : wf_query doms []) by (split; [constructor|intros v s []]).
  destruct (proj2 (world_infer doms J W [] e fail W0 We (fun v I _ => I)) N) as (r & E & Er & _). exists r. split; [exact E|]. rewrite Er. apply Qdiv_same, N.
Qed.
Print Assumptions C39_infer_empty.

(** For every family with the contract of TreeSpec.v. *)
Theorem C39_infer_any : forall (F : family) (J : jpt F) (L : measured (full J)) q e fail, tree_ok J -> proper_tree J L -> supported_tree J L ->
  event L (n_vars J) q -> event L (n_vars J) e ->
  (mixture J L e == 0 -> infer J q e fail = if fail then Err ValueError else Ok None) /\
  (~ mixture J L e == 0 -> exists r, infer J q e fail = Ok (Some r) /\ r == mixture J L (q ++ e) / mixture J L e).
Proof. intros F J L q e fail T Pt St Eq Ee. exact (infer_spec J L T Pt St q e fail Eq Ee). Qed.
Print Assumptions C39_infer_any.

(** The full claim fails for shared variables: infer(q, q) is not 1. *)
Theorem C39_infer_same_refuted : exists doms (J : jpt discrete) (q : query), wf_tree doms J /\ wf_query doms q /\ ~ Pr doms J q == 0 /\
  exists r, infer J q q true = Ok (Some r) /\ ~ r == 1.
Proof.
  exists ex_doms, ex, ex_q. split; [apply ex_wf|]. split; [apply ex_q_wf|]. split; [vm_compute; discriminate|]. eexists. split; [vm_compute; reflexivity|]. vm_compute. discriminate.
Qed.
Print Assumptions C39_infer_same_refuted.

Definition ex_q2 : query := [(0, [1; 0])%nat].
Lemma ex_q2_wf : wf_query ex_doms ex_q2.
Proof. split; [repeat constructor; intros []|]. intros v s [E|[]]. inversion E; subst. split; [cbn; lia|]. intros x [<-|[<-|[]]]; cbn; lia. Qed.
Example C39_example : ~ Pr ex_doms ex ex_q == 0 /\ exists r, infer ex ex_q2 ex_q true = Ok (Some r) /\ r == 7 # 10.
Proof. split; [vm_compute; discriminate|]. eexists. split; [vm_compute; reflexivity|]. vm_compute. reflexivity. Qed.

(** ** C40: posterior *)

Theorem C40_posterior_partial : forall doms (J : jpt discrete) (vs : list nat) (e : query) fail, wf_tree doms J -> wf_query doms e -> (forall v, In v vs -> (v < length doms)%nat) ->
  (* evidence variables that are asked for occur on the path of every leaf that matters *)
  (forall v, In v vs -> In v (map fst e) -> forall l, In l (leaves J) -> 0 < l_prior l -> 0 < Pr_leaf doms (l_dists l) e -> In v (map fst (l_path l))) ->
  (Pr doms J e == 0 -> posterior J vs e fail = if fail then Err Unsatisfiability else Ok None) /\
  (~ Pr doms J e == 0 -> exists ds, posterior J vs e fail = Ok (Some (combine vs ds)) /\
     Forall2 (fun v d => ok_dist (domain doms v) d /\
       forall s, (forall x, In x s -> (x < n_values (domain doms v))%nat) -> exists p, dd_p d s = Ok p /\ p == Pr doms J ((v, s) :: e) / Pr doms J e) vs ds).
Proof. intros doms J vs e fail W We V H. exact (world_posterior doms J W vs e fail We V H). Qed.
Print Assumptions C40_posterior_partial.

(** posterior agrees with infer on every event of a variable without evidence. *)
Theorem C40_posterior_infer : forall doms (J : jpt discrete) v (e : query) s, wf_tree doms J -> wf_query doms e -> (v < length doms)%nat -> ~ In v (map fst e) ->
  (forall x, In x s -> (x < n_values (domain doms v))%nat) -> ~ Pr doms J e == 0 ->
  exists d p r, posterior J [v] e true = Ok (Some [(v, d)]) /\ dd_p d s = Ok p /\ infer J [(v, s)] e true = Ok (Some r) /\ p == r.
Proof.
  intros doms J v e s W We V Nv Bs N.
  destruct (proj2 (world_posterior doms J W [v] e true We (fun v' I => match I with or_introl E => eq_ind v (fun z => (z < length doms)%nat) V v' E | or_intror B => match B with end end)
    (fun v' I Ie => match (match I with or_introl E => eq_ind v (fun z => ~ In z (map fst e)) Nv v' E | or_intror B => match B with end end) Ie with end)) N) as (ds & E & F2).
  inversion F2 as [|? d ? ds' [Od Hd] F3]; subst. inversion F3; subst. destruct (Hd s Bs) as (p & Ep & Pp).
  assert (Wq : wf_query doms [(v, s)]). { split; [repeat constructor; intros []|]. intros v' s' [Ev|[]]. inversion Ev; subst. split; assumption. }
  destruct (proj2 (world_infer doms J W [(v, s)] e true Wq We (fun v' I => match I with or_introl E => eq_ind v (fun z => ~ In z (map fst e)) Nv v' E | or_intror B => match B with end end)) N) as (r & Er & Rr & _).
  exists d, p, r. split; [exact E|]. split; [exact Ep|]. split; [exact Er|]. rewrite Pp, Rr. reflexivity.
Qed.
Print Assumptions C40_posterior_infer.

(** The posterior of an evidence variable is not cropped in leaves whose path does
    not mention it. *)
Theorem C40_posterior_refuted : exists doms (J : jpt discrete) v (e : query) s, wf_tree doms J /\ wf_query doms e /\ ~ Pr doms J e == 0 /\
  Pr doms J ((v, s) :: e) == 0 /\ exists d p, posterior J [v] e true = Ok (Some [(v, d)]) /\ dd_p d s = Ok p /\ ~ p == 0.
Proof.
  exists ex_doms, ex, 1%nat, ex_q, [1%nat]. split; [apply ex_wf|]. split; [apply ex_q_wf|]. split; [vm_compute; discriminate|]. split; [vm_compute; reflexivity|].
  eexists _, _. split; [vm_compute; reflexivity|]. split; [vm_compute; reflexivity|]. vm_compute. discriminate.
Qed.
Print Assumptions C40_posterior_refuted.

Example C40_example : exists d p r, posterior ex [0%nat] ex_q true = Ok (Some [(0%nat, d)]) /\ dd_p d [1%nat] = Ok p /\ infer ex [(0, [1])%nat] ex_q true = Ok (Some r) /\ p == r.
Proof. apply (C40_posterior_infer ex_doms); [apply ex_wf|apply ex_q_wf|cbn; lia|cbn; intros [E|[]]; discriminate|intros x [<-|[]]; cbn; lia|vm_compute; discriminate]. Qed.

(** ** C41: conditional_jpt *)

Theorem C41_conditional_partial : forall doms (J : jpt discrete) (e : query) fail, wf_tree doms J -> wf_query doms e -> e <> [] ->
  (forall n, In n (innernodes J) -> length (i_children n) = 2%nat) ->
  (Pr doms J e == 0 -> conditional_jpt J e fail = if fail then Err Unsatisfiability else Ok None) /\
  (~ Pr doms J e == 0 -> exists J', conditional_jpt J e fail = Ok (Some J') /\ wf_tree doms J' /\
     (forall n, In n (innernodes J') -> i_children n <> []) /\
     Qsum (map l_prior (leaves J')) == 1 /\
     Forall2 (fun l l' : leaf discrete => l_idx l' = l_idx l /\ l_parent l' = l_parent l /\ l_path l' = l_path l /\ l_samples l' = l_samples l /\
                l_prior l' == l_prior l * Pr_leaf doms (l_dists l) e / Pr doms J e /\
                forall w, In w (worlds doms) -> density (l_dists l') w == if sat e w then density (l_dists l) w / Pr_leaf doms (l_dists l) e else 0)
       (filter (fun l : leaf discrete => Qltb 0 (Pr_leaf doms (l_dists l) e)) (leaves J)) (leaves J') /\
     (forall q, wf_query doms q -> Pr doms J' q == Pr doms J (q ++ e) / Pr doms J e) /\
     Forall2 (fun v d => ok_dist (domain doms v) d /\
       forall s, (forall x, In x s -> (x < n_values (domain doms v))%nat) -> exists p, dd_p d s = Ok p /\ p == Pr doms J ((v, s) :: e) / Pr doms J e)
       (seq 0 (length doms)) (priors J')).
Proof. intros doms J e fail W We N B. exact (world_conditional doms J W e fail We N B). Qed.
Print Assumptions C41_conditional_partial.

(** Inference in the conditional tree: infer on J' is conditional probability on J,
    also for queries about the evidence variables. *)
Theorem C41_conditional_infer : forall doms (J J' : jpt discrete) (q e : query) fail, wf_tree doms J -> wf_query doms q -> wf_query doms e ->
  (forall n, In n (innernodes J) -> length (i_children n) = 2%nat) -> ~ Pr doms J e == 0 -> Qsum (map l_prior (leaves J)) == 1 ->
  conditional_jpt J e true = Ok (Some J') -> exists r, infer J' q [] fail = Ok (Some r) /\ r == Pr doms J (q ++ e) / Pr doms J e.
Proof.
  intros doms J J' q e fail W Wq We B N S1 E. assert (W0 : wf_query doms []) by (split; [constructor|intros v s []]).
  assert (K : wf_tree doms J' /\ Qsum (map l_prior (leaves J')) == 1 /\ forall q, wf_query doms q -> Pr doms J' q == Pr doms J (q ++ e) / Pr doms J e).
  { destruct e as [|c e].
    - cbn in E. inversion E; subst J'. split; [exact W|]. split; [exact S1|]. intros q' Wq'. rewrite app_nil_r. assert (P1 : Pr doms J [] == 1). { rewrite Pr_leaves. rewrite <- S1. apply Qsum_map_ext. intros l I.
        pose proof (wt_leaves doms J W) as Fl. rewrite Forall_forall in Fl. rewrite <- (leaf_prob_worlds doms (l_dists l) []); [cbn; ring| |exact W0].
        eapply Forall2_impl; [|exact (wl_dists doms l (Fl l I))]. intros D d _ (A1 & A2 & A3 & A4). split; [exact A1|]. split; [exact A2|]. split; assumption. }
      rewrite P1. field.
    - destruct (proj2 (world_conditional doms J W (c :: e) true We ltac:(discriminate) B) N) as (J2 & E2 & W2 & _ & S2 & _ & Q2 & _). rewrite E in E2. inversion E2; subst J2. split; [exact W2|]. split; assumption. }
  destruct K as (W' & S' & Q').
  assert (P1 : Pr doms J' [] == 1). { rewrite (Q' [] W0). cbn [app]. apply Qdiv_same, N. }
  destruct (proj2 (world_infer doms J' W' q [] fail Wq W0 (fun v _ I => I))) as (r & Er & Rr & _); [rewrite P1; discriminate|]. exists r. split; [exact Er|]. rewrite Rr, app_nil_r, P1, (Q' q Wq). field. exact N.
Qed.
Print Assumptions C41_conditional_infer.

Definition ex_c : jpt discrete := match conditional_jpt ex ex_q true with Ok (Some J) => J | _ => ex end.
Lemma ex_c_eq : conditional_jpt ex ex_q true = Ok (Some ex_c).
Proof.
  assert (B : match conditional_jpt ex ex_q true with Ok (Some _) => true | _ => false end = true) by (vm_compute; reflexivity).
  unfold ex_c. destruct (conditional_jpt ex ex_q true) as [[J|]|]; [reflexivity|discriminate B|discriminate B].
Qed.

(** Conditioning a conditional tree again fails: decision nodes with one child are
    not explored. *)
Theorem C41_twice_refuted : exists doms (J J1 : jpt discrete) (e1 e2 : query), wf_tree doms J /\ wf_query doms e1 /\ wf_query doms e2 /\
  conditional_jpt J e1 true = Ok (Some J1) /\ ~ Pr doms J1 e2 == 0 /\ conditional_jpt J1 e2 true = Err Unsatisfiability.
Proof.
  exists ex_doms, ex, ex_c, ex_q, [(0, [0])%nat]. split; [apply ex_wf|]. split; [apply ex_q_wf|]. split. { split; [repeat constructor; intros []|]. intros v s [X|[]]. inversion X; subst. split; [cbn; lia|]. intros x [<-|[]]. cbn; lia. }
  split; [exact ex_c_eq|]. split; [vm_compute; discriminate|]. vm_compute. reflexivity.
Qed.
Print Assumptions C41_twice_refuted.

Example C41_example : (forall n, In n (innernodes ex) -> length (i_children n) = 2%nat) /\ ~ Pr ex_doms ex ex_q == 0 /\
  exists J', conditional_jpt ex ex_q true = Ok (Some J') /\ map l_idx (leaves J') = [1; 3]%nat.
Proof. split; [intros n I; cbn in I; cases I; subst n; reflexivity|]. split; [vm_compute; discriminate|]. exists ex_c. split; [exact ex_c_eq|]. vm_compute. reflexivity. Qed.

(** ** C42: expectation and moment *)

(** [cond_exp v g e]: the mean of g(value of v) over the worlds satisfying e.
    Integer variables: the conditional mean of the labels; symbolic variables: the
    set of the most probable values. *)
Theorem C42_expectation_partial : forall doms (J : jpt discrete) (ovs : option (list nat)) (e : query) fail, wf_tree doms J -> wf_query doms e ->
  let vs := match ovs with
            | Some (v :: vs) => v :: vs
            | Some [] => filter (fun v => negb (existsb (Nat.eqb v) (map fst e))) (seq 0 (length doms))
            | None => seq 0 (length doms)
            end in
  (0 < length doms)%nat -> (forall v, In v vs -> (v < length doms)%nat /\ on_paths doms J v e) ->
  (Pr doms J e == 0 -> expectation J ovs e fail = if fail then Err Unsatisfiability else Ok None) /\
  (~ Pr doms J e == 0 -> exists r, expectation J ovs e fail = Ok (Some r) /\ Forall2 (fun v vr => fst vr = v /\ is_expectation doms J v e (snd vr)) vs r).
Proof. intros doms J ovs e fail W We. exact (world_expectation doms J W ovs e fail We). Qed.
Print Assumptions C42_expectation_partial.

Theorem C42_moment_partial : forall doms (J : jpt discrete) (vs : list nat) (order : nat) (center : list (nat * Q)) (e : query) fail, wf_tree doms J -> wf_query doms e ->
  (forall v, In v vs -> (v < length doms)%nat /\ on_paths doms J v e /\ exists lo hi, domain doms v = IntDom lo hi) ->
  (Pr doms J e == 0 -> moment J vs order center e fail = if fail then Err Unsatisfiability else Ok None) /\
  (~ Pr doms J e == 0 -> exists r, moment J vs order center e fail = Ok (Some r) /\
     Forall2 (fun v vr => fst vr = v /\ exists lo hi c, domain doms v = IntDom lo hi /\ c = match lookup center v with Some c => c | None => 0 end /\
                snd vr == cond_exp doms J v (fun k => Qpower (inject_Z (lo + Z.of_nat k) - c) (Z.of_nat order)) e) vs r).
Proof. intros doms J vs order center e fail W We. exact (world_moment doms J W vs order center e fail We). Qed.
Print Assumptions C42_moment_partial.

(** Linearity in the leaves. *)
Theorem C42_linear : forall doms (J : jpt discrete) v (g : nat -> Q) (e : query), wf_tree doms J -> wf_query doms e -> (v < length doms)%nat -> ~ In v (map fst e) ->
  cond_exp doms J v g e == Qsum (map (fun l : leaf discrete => l_prior l * Pr_leaf doms (l_dists l) e / Pr doms J e *
    match nth_error (l_dists l) v with Some d => Qsum (map (fun x => g x * nth x (d_params d) 0) (seq 0 (n_values (domain doms v)))) | None => 0 end) (leaves J)).
Proof. intros doms J v g e W. exact (expectation_leaves doms J W v g e). Qed.
Print Assumptions C42_linear.

Example C42_example : exists r, expectation ex (Some [1%nat]) ex_q2 true = Ok (Some [(1%nat, inl r)]) /\ r == cond_exp ex_doms ex 1 (fun k => inject_Z (0 + Z.of_nat k)) ex_q2 /\ r == 19 # 33.
Proof. eexists. split; [vm_compute; reflexivity|]. split; vm_compute; reflexivity. Qed.

(** ** C43: mpe *)

(** [is_mpe e rs p]: [p] bounds the density of every world in every leaf, and
    every world drawn from a returned assignment attains it. *)
Theorem C43_mpe_partial : forall doms (J : jpt discrete) (e : query) fail, wf_tree doms J -> wf_query doms e ->
  (e = [] -> Qsum (map l_prior (leaves J)) == 1) ->
  (e <> [] -> forall n, In n (innernodes J) -> length (i_children n) = 2%nat) ->
  (Pr doms J e == 0 -> mpe J e fail = if fail then Err Unsatisfiability else Ok None) /\
  (~ Pr doms J e == 0 -> exists rs p, mpe J e fail = Ok (Some (rs, p)) /\ is_mpe doms J e rs p).
Proof. intros doms J e fail W. exact (world_mpe doms J W e fail). Qed.
Print Assumptions C43_mpe_partial.

Example C43_example : exists rs p, mpe ex ex_q true = Ok (Some (rs, p)) /\ is_mpe ex_doms ex ex_q rs p /\ rs = [[[0]; [0]]]%nat.
Proof.
  destruct (proj2 (C43_mpe_partial ex_doms ex ex_q true ex_wf ex_q_wf ltac:(discriminate) (fun _ => proj1 C41_example)) (proj1 C39_example)) as (rs & p & E & M). exists rs, p. split; [exact E|]. split; [exact M|].
  assert (E' : option_map fst (match mpe ex ex_q true with Ok o => o | Err _ => None end) = Some rs) by (rewrite E; reflexivity). vm_compute in E'. congruence.
Qed.

(** ** C45: prune *)

Theorem C45_prune_partial : forall doms (J : jpt discrete) t, wf_tree doms J -> (forall n, In n (innernodes J) -> exists a b, i_children n = [Some a; Some b]) ->
  Forall (fun l : leaf discrete => 0 < l_prior l) (leaves J) ->
  exists J', prune J t = Ok J' /\ wf_tree doms J' /\ (forall n, In n (innernodes J') -> exists a b, i_children n = [Some a; Some b]) /\
    (length (innernodes J') <= length (innernodes J))%nat /\
    Qsum (map l_prior (leaves J')) == Qsum (map l_prior (leaves J)) /\
    list_sum (map l_samples (leaves J')) = list_sum (map l_samples (leaves J)) /\
    (forall v s, (v < length doms)%nat -> (forall x, In x s -> (x < n_values (domain doms v))%nat) -> Pr doms J' [(v, s)] == Pr doms J [(v, s)]) /\
    (forall n a b l r x, In n (innernodes J') -> i_children n = [Some a; Some b] -> get_node J' a = Some (NLeaf l) -> get_node J' b = Some (NLeaf r) ->
       similarity J' n l r = Some x -> x < t).
Proof. intros doms J t W B P. exact (world_prune doms J t W B P). Qed.
Print Assumptions C45_prune_partial.

(** Pruning a conditional tree with a one-child node raises. *)
Theorem C45_one_child_refuted : exists doms (J J1 : jpt discrete) (e : query) t, wf_tree doms J /\ wf_query doms e /\ conditional_jpt J e true = Ok (Some J1) /\ prune J1 t = Err ValueError.
Proof.
  exists ex_doms, ex, ex_c, ex_q, 0. split; [apply ex_wf|]. split; [apply ex_q_wf|]. split; [exact ex_c_eq|]. vm_compute. reflexivity.
Qed.
Print Assumptions C45_one_child_refuted.

(** In a tree over one variable no leaves are ever merged, however similar. *)
Theorem C45_single_variable : forall (F : family) (J : jpt F) t, n_vars J = 1%nat -> (forall n, In n (innernodes J) -> i_var n = 0%nat /\ exists a b, i_children n = [Some a; Some b]) ->
  prune J t = Ok J.
Proof.
  intros F J t N H. unfold prune. assert (G : forall fuel q, (length q <= fuel)%nat -> prune_loop fuel t J q = Ok J).
  { induction fuel as [|fuel IH]; intros [|i q] Lq; cbn in Lq; try lia; [reflexivity|reflexivity|]. cbn [prune_loop]. destruct (get_inner J i) as [n|] eqn:G; [|apply IH; lia].
    destruct (H n (proj1 (get_inner_some J i n G))) as (V & a & b & Ch). rewrite Ch. destruct (get_inner J a), (get_inner J b), (get_leaf J a), (get_leaf J b); try (apply IH; lia).
    assert (similarity J n l l0 = None) as ->; [|apply IH; lia]. unfold similarity. rewrite N, V. reflexivity. }
  apply G. rewrite map_length. lia.
Qed.
Print Assumptions C45_single_variable.

Example C45_example : (forall n, In n (innernodes ex) -> exists a b, i_children n = [Some a; Some b]) /\ Forall (fun l : leaf discrete => 0 < l_prior l) (leaves ex) /\
  match prune ex (1 # 2) with Ok J' => map l_idx (leaves J') = [6]%nat /\ map l_samples (leaves J') = [8]%nat | Err _ => False end.
Proof.
  split; [intros n I; cbn in I; cases I; subst n; do 2 eexists; reflexivity|]. split; [repeat constructor|]. vm_compute. split; reflexivity.
Qed.

(** ** C55: likelihood and pdf *)

Theorem C55_likelihood : forall doms (J : jpt discrete) w, wf_tree doms J -> In w (worlds doms) ->
  exists p, likelihood J w = Ok p /\ p == Qsum (map (fun l : leaf discrete => l_prior l * density (l_dists l) w) (leaves J)).
Proof. intros doms J w W I. exists (joint J w). split; [exact (world_likelihood doms J W w I)|reflexivity]. Qed.
Print Assumptions C55_likelihood.

(** pdf agrees with likelihood if the labels of every variable are its values. *)
Theorem C55_pdf_partial : forall doms (J : jpt discrete) w, wf_tree doms J -> In w (worlds doms) ->
  Forall (fun D => match D with SymDom ls => ls = map (fun k => Some (Z.of_nat k)) (seq 0 (length ls)) | IntDom lo _ => lo = 0%Z end) doms ->
  exists p q, pdf J (combine (seq 0 (length w)) w) = Ok p /\ likelihood J w = Ok q /\ p == q.
Proof.
  intros doms J w W I H. destruct (world_pdf_row doms J W w I H) as (p & E & Ep). exists p, (joint J w). split; [exact E|]. split; [exact (world_likelihood doms J W w I)|exact Ep].
Qed.
Print Assumptions C55_pdf_partial.

Definition str_tree : jpt discrete := JPT (F := discrete) 1 (dfull [SymDom [None; None]]) []
  [Leaf (F := discrete) 0 None 1 4 [DDist (SymDom [None; None]) [1 # 4; 3 # 4]] []] (Some 0%nat) [].
Definition int_tree : jpt discrete := JPT (F := discrete) 1 (dfull [IntDom 1 3]) []
  [Leaf (F := discrete) 0 None 1 4 [DDist (IntDom 1 3) [1 # 4; 1 # 2; 1 # 4]] []] (Some 0%nat) [].
Lemma one_leaf_tree : forall D d, ok_dist D d -> tree_ok (JPT (F := discrete) 1 (dfull [D]) [] [Leaf (F := discrete) 0 None 1 4 [d] []] (Some 0%nat) []).
Proof.
  intros D d O. constructor; cbn.
  - repeat constructor; intros [].
  - eexists _, _. repeat split.
  - intros n [].
  - intros n [].
  - intros n k c s [].
  - intros [|i] m G; cbn in G; inversion G; subst m; reflexivity.
Qed.

(** String labels make pdf raise; integer labels are confused with values. *)
Theorem C55_pdf_refuted :
  (exists doms (J : jpt discrete) w, wf_tree doms J /\ In w (worlds doms) /\ pdf J (combine (seq 0 (length w)) w) = Err ValueError /\ exists q, likelihood J w = Ok q /\ 0 < q) /\
  (exists doms (J : jpt discrete) w p q, wf_tree doms J /\ In w (worlds doms) /\ pdf J (combine (seq 0 (length w)) w) = Ok p /\ likelihood J w = Ok q /\ ~ p == q).
Proof.
  split.
  - exists [SymDom [None; None]], str_tree, [1%nat]. split.
    { constructor; [reflexivity|reflexivity|apply one_leaf_tree; repeat split; repeat constructor; cbn; lra|]. apply Forall_cons; [|constructor].
      constructor; cbn; [repeat constructor; cbn; lra|lra|intros v s []|intros v s d x []]. }
    split; [vm_compute; auto 10|]. split; [vm_compute; reflexivity|]. eexists. split; [vm_compute; reflexivity|]. vm_compute. reflexivity.
  - exists [IntDom 1 3], int_tree, [1%nat]. eexists _, _. split.
    { constructor; [reflexivity|reflexivity|apply one_leaf_tree; repeat split; repeat constructor; cbn; lra|]. apply Forall_cons; [|constructor].
      constructor; cbn; [repeat constructor; cbn; lra|lra|intros v s []|intros v s d x []]. }
    split; [vm_compute; auto 10|]. split; [vm_compute; reflexivity|]. split; [vm_compute; reflexivity|]. vm_compute. discriminate.
Qed.
Print Assumptions C55_pdf_refuted.

Example C55_example : exists p q, pdf ex (combine (seq 0 2) [2; 1]%nat) = Ok p /\ likelihood ex [2; 1]%nat = Ok q /\ p == q /\ q == 3 # 16.
Proof. eexists _, _. split; [vm_compute; reflexivity|]. split; [vm_compute; reflexivity|]. split; vm_compute; reflexivity. Qed.

(** ** C68: re-weighting *)

Theorem C68_normalize : forall doms (J : jpt discrete), wf_tree doms J ->
  (Qsum (map l_prior (leaves J)) == 0 -> normalize J = Err Unsatisfiability) /\
  (~ Qsum (map l_prior (leaves J)) == 0 -> exists J', normalize J = Ok J' /\ wf_tree doms J' /\ reweighted J J' /\ Qsum (map l_prior (leaves J')) == 1 /\
     (forall w, In w (worlds doms) -> joint J' w == joint J w / Qsum (map l_prior (leaves J)))).
Proof. intros doms J W. exact (world_normalize doms J W). Qed.
Print Assumptions C68_normalize.

Theorem C68_multiply_by_leaf_prior : forall doms (J : jpt discrete) prior, wf_tree doms J ->
  (forall l, In l (leaves J) -> exists x, lookup prior (l_idx l) = Some x /\ 0 <= x) ->
  let f := fun l : leaf discrete => match lookup prior (l_idx l) with Some x => x | None => 0 end in
  let mass := Qsum (map (fun l : leaf discrete => l_prior l * f l) (leaves J)) in
  (mass == 0 -> multiply_by_leaf_prior J prior = Err Unsatisfiability) /\
  (~ mass == 0 -> exists J', multiply_by_leaf_prior J prior = Ok J' /\ wf_tree doms J' /\ reweighted J J' /\ Qsum (map l_prior (leaves J')) == 1 /\
     forall w, In w (worlds doms) -> joint J' w == Qsum (map (fun l : leaf discrete => l_prior l * f l * density (l_dists l) w) (leaves J)) / mass).
Proof. intros doms J prior W. exact (world_multiply doms J prior W). Qed.
Print Assumptions C68_multiply_by_leaf_prior.

Example C68_example : match multiply_by_leaf_prior ex [(1%nat, 0); (3%nat, 1); (4%nat, 3)] with Ok J' => Forall2 Qeq (map l_prior (leaves J')) [0; 1 # 4; 3 # 4] | Err _ => False end.
Proof. vm_compute. repeat constructor. Qed.
