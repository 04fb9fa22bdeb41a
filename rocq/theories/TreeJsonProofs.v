(** Proofs about the serialisation of trees. *)
Require Import String QArith ZArith Bool List Arith Lia.
Require Import Verif.Base Verif.NumBase Verif.Json Verif.VarModel Verif.VarSpec Verif.VarProofs Verif.VarProps.
Require Import Verif.TreeModel Verif.TreeSpec Verif.TreeApply Verif.TreePosterior Verif.TreeCond Verif.TreeCond2 Verif.LearnModel Verif.LearnTree Verif.TreeJson.
Import ListNotations.
Open Scope list_scope.
Open Scope nat_scope.

Lemma mapM_map : forall A B E (f : B -> res E) (g : A -> B) l, mapM f (map g l) = mapM (fun a => f (g a)) l.
Proof. intros A B E f g l. induction l as [|a l IH]; [reflexivity|]. cbn [map]. rewrite !mapM_cons, IH. reflexivity. Qed.
Lemma mapM_ok : forall A B (f : A -> res B) (g : A -> B) l, (forall a, In a l -> f a = Ok (g a)) -> mapM f l = Ok (map g l).
Proof.
  intros A B f g l. induction l as [|a l IH]; intro H; [reflexivity|]. rewrite mapM_cons, (H a (or_introl eq_refl)). cbn [bind].
  rewrite IH by (intros x I; apply H; right; exact I). reflexivity.
Qed.
Lemma as_nat_jnat : forall n, as_nat (jnat n) = Ok n.
Proof. intro n. unfold as_nat, jnat. cbn [as_int bind]. destruct (Z.ltb_spec (Z.of_nat n) 0) as [H|_]; [lia|]. rewrite Nat2Z.id. reflexivity. Qed.
Lemma scalar_round : forall s, scalar_parse (scalar_json s) = Ok s.
Proof. intros []; reflexivity. Qed.

(** ** Loading the nodes *)
Section Nodes.
  Context {F : family} {D : Type}.
  Variable C : codec F D.
  Notation W := (VarModel.var D num).

  (** Every node is listed after its parent. *)
  Definition parents_first (ns : list (inner F)) : Prop :=
    forall pre n post p, ns = pre ++ n :: post -> i_parent n = Some p -> In p (map i_idx pre).

  Definition seen (S : list nat) (c : option nat) : option nat :=
    match c with Some i => if existsb (Nat.eqb i) S then Some i else None | None => None end.
  Definition restrict (S : list nat) (n : inner F) : inner F :=
    Inner (i_idx n) (i_parent n) (i_var n) (i_splits n) (map (seen S) (i_children n)) (i_samples n) (i_path n).

  Lemma mem_spec : forall i S, existsb (Nat.eqb i) S = true <-> In i S.
  Proof.
    intros i S. rewrite existsb_exists. split; [intros (x & I & E); apply Nat.eqb_eq in E; congruence|intro I; exists i; split; [exact I|apply Nat.eqb_refl]].
  Qed.
  Lemma mem_false : forall i S, ~ In i S -> existsb (Nat.eqb i) S = false.
  Proof. intros i S N. destruct (existsb (Nat.eqb i) S) eqn:E; [|reflexivity]. apply mem_spec in E. contradiction. Qed.
  Lemma seen_other : forall S i c, c <> Some i -> seen (S ++ [i]) c = seen S c.
  Proof.
    intros S i [j|] N; [|reflexivity]. unfold seen. rewrite existsb_app. cbn [existsb]. destruct (Nat.eqb_spec j i) as [->|_]; [contradiction|]. rewrite !orb_false_r. reflexivity.
  Qed.
  Lemma seen_new : forall S i, seen (S ++ [i]) (Some i) = Some i.
  Proof. intros S i. unfold seen. rewrite existsb_app. cbn [existsb]. rewrite Nat.eqb_refl, orb_true_r. reflexivity. Qed.
  Lemma restrict_other : forall S i n, ~ In (Some i) (i_children n) -> restrict (S ++ [i]) n = restrict S n.
  Proof.
    intros S i n N. unfold restrict. f_equal. apply map_ext_in. intros c I. apply seen_other. intro E. apply N. rewrite <- E. exact I.
  Qed.
  Lemma index_of_nth : forall i cs k, index_of i cs = Some k -> nth_error cs k = Some (Some i).
  Proof.
    intros i cs. induction cs as [|c cs IH]; intros k E; [discriminate E|]. cbn [index_of] in E. destruct c as [j|].
    - destruct (Nat.eqb_spec j i) as [->|_]; [injection E as <-; reflexivity|]. destruct (index_of i cs) as [k'|]; [|discriminate E]. injection E as <-. apply IH. reflexivity.
    - destruct (index_of i cs) as [k'|]; [|discriminate E]. injection E as <-. apply IH. reflexivity.
  Qed.
  Lemma index_of_some : forall i cs, In (Some i) cs -> exists k, index_of i cs = Some k.
  Proof.
    intros i cs. induction cs as [|c cs IH]; intro I; [destruct I|]. cbn [index_of]. destruct c as [j|].
    - destruct (Nat.eqb_spec j i) as [->|N]; [exists 0; reflexivity|]. destruct I as [E|I]; [injection E as E; contradiction|]. destruct (IH I) as (k & ->). exists (S k). reflexivity.
    - destruct I as [E|I]; [discriminate E|]. destruct (IH I) as (k & ->). exists (S k). reflexivity.
  Qed.
  Lemma map_seen_upd : forall S i cs k, NoDup cs -> nth_error cs k = Some (Some i) -> map (seen (S ++ [i])) cs = list_upd (map (seen S) cs) k (Some i).
  Proof.
    intros S i cs. induction cs as [|c cs IH]; intros k N E; [destruct k; discriminate E|]. apply NoDup_cons_iff in N. destruct N as (N1 & N2). destruct k as [|k]; cbn [nth_error] in E.
    - injection E as ->. cbn [map list_upd]. rewrite seen_new. f_equal. apply map_ext_in. intros c I. apply seen_other. intro E. subst c. contradiction.
    - cbn [map list_upd]. rewrite seen_other; [f_equal; apply IH; assumption|]. intro Ec. subst c. apply N1. apply nth_error_In in E. exact E.
  Qed.

  Section Load.
    Variable J : jpt F.
    Hypothesis T : tree_ok J.

    Lemma find_restrict : forall S l j, find (fun n => Nat.eqb (i_idx n) j) (map (restrict S) l) = option_map (restrict S) (find (fun n => Nat.eqb (i_idx n) j) l).
    Proof. intros S l j. induction l as [|n l IH]; [reflexivity|]. cbn [map find]. change (i_idx (restrict S n)) with (i_idx n). destruct (Nat.eqb (i_idx n) j); [reflexivity|exact IH]. Qed.
    Lemma find_prefix : forall pre post p, innernodes J = pre ++ post -> In p (map i_idx pre) -> find (fun n => Nat.eqb (i_idx n) p) pre = get_inner J p.
    Proof.
      intros pre post p E I. unfold get_inner. rewrite E. rewrite find_app. destruct (find (fun n => Nat.eqb (i_idx n) p) pre) eqn:Ef; [reflexivity|].
      exfalso. apply in_map_iff in I. destruct I as (n & En & I). pose proof (find_none _ _ Ef n I) as H. cbn in H. rewrite En, Nat.eqb_refl in H. discriminate H.
    Qed.

    (** One node is mounted. *)
    Lemma mount_step : forall S pre post i m J1 jk,
      innernodes J = pre ++ post -> get_node J i = Some m -> ~ In i S ->
      (forall p, n_parent m = Some p -> In p (map i_idx pre)) ->
      innernodes J1 = map (restrict S) pre ->
      exists ko, place_of J (n_parent m) i = Ok ko /\
        ((forall k, ko = Some k -> jk = jnat k) ->
         parent_parse J1 (jopt (n_parent m)) = Ok (n_parent m) /\
         mount J1 (n_parent m) jk i = Ok (with_nodes J1 (map (restrict (S ++ [i])) pre) (leaves J1), n_path m)).
    Proof.
      intros S pre post i m J1 jk E G Ni Hp E1. pose proof (parent_ok J T i m G) as P. destruct (n_parent m) as [p|] eqn:Ep.
      - destruct P as (np & Gp & Ic). destruct (index_of_some i _ Ic) as (k & Ek). exists (Some k). cbn [place_of]. rewrite Gp, Ek. split; [reflexivity|]. intro Hk. rewrite (Hk k eq_refl).
        specialize (Hp p eq_refl). assert (G1 : get_inner J1 p = Some (restrict S np)). { unfold get_inner. rewrite E1, find_restrict, (find_prefix pre post p E Hp), Gp. reflexivity. }
        destruct (get_inner_some J p np Gp) as (Inp & Eip). apply index_of_nth in Ek.
        assert (Ls : exists s, nth_error (i_splits np) k = Some s).
        { destruct (nth_error (i_splits np) k) as [s|] eqn:Es; [exists s; reflexivity|]. exfalso. apply nth_error_None in Es. rewrite <- (lengths J T np Inp) in Es. apply nth_error_None in Es. congruence. }
        destruct Ls as (s & Es). destruct (child_ok J T np k _ s Inp Ek Es) as (i' & m' & Ei' & G' & _ & Pa). injection Ei' as <-. rewrite G in G'. injection G' as <-.
        split.
        + unfold jopt, jnat. cbn [parent_parse]. change (@JInt num (Z.of_nat p)) with (jnat p). rewrite as_nat_jnat. cbn [bind]. rewrite G1. reflexivity.
        + cbn [mount]. rewrite as_nat_jnat. cbn [bind]. unfold link. rewrite G1. cbn [restrict i_splits]. rewrite Es. cbn [restrict i_path i_var]. rewrite <- Pa.
          f_equal. f_equal. f_equal. rewrite E1. unfold set_inner. rewrite map_map. apply map_ext_in. intros n In_. assert (InJ : In n (innernodes J)) by (rewrite E; apply in_or_app; left; exact In_).
          cbn [restrict i_idx i_children i_parent i_var i_samples i_path]. destruct (Nat.eqb_spec (i_idx n) (i_idx np)) as [Eq|Ne].
          * pose proof (in_get_inner J (ids J T) n InJ) as A. pose proof (in_get_inner J (ids J T) np Inp) as B. rewrite Eq, B in A. injection A as <-. unfold restrict. f_equal. symmetry. apply map_seen_upd; [apply (child_once J T np Inp)|exact Ek].
          * symmetry. apply restrict_other. intro Ic'. apply In_nth_error in Ic'. destruct Ic' as (k' & Ek'). destruct (nth_error (i_splits n) k') as [s'|] eqn:Es'.
            -- destruct (child_ok J T n k' _ s' InJ Ek' Es') as (i' & m' & Ei' & G' & Q & _). injection Ei' as <-. rewrite G in G'. injection G' as <-. rewrite Ep in Q. injection Q as Q. congruence.
            -- apply nth_error_None in Es'. rewrite <- (lengths J T n InJ) in Es'. apply nth_error_None in Es'. congruence.
      - exists None. split; [reflexivity|]. intros _. split; [reflexivity|]. cbn [mount]. f_equal. f_equal.
        + replace (map (restrict (S ++ [i])) pre) with (innernodes J1); [destruct J1; reflexivity|]. rewrite E1. apply map_ext_in. intros n In_. symmetry. apply restrict_other.
          assert (InJ : In n (innernodes J)) by (rewrite E; apply in_or_app; left; exact In_). intro Ic'. apply In_nth_error in Ic'. destruct Ic' as (k' & Ek'). destruct (nth_error (i_splits n) k') as [s'|] eqn:Es'.
          * destruct (child_ok J T n k' _ s' InJ Ek' Es') as (i' & m' & Ei' & G' & Q & _). injection Ei' as <-. rewrite G in G'. injection G' as <-. rewrite Ep in Q. discriminate Q.
          * apply nth_error_None in Es'. rewrite <- (lengths J T n InJ) in Es'. apply nth_error_None in Es'. congruence.
        + destruct (root_ok J T) as (r & m' & R & G' & _ & Pa). rewrite P in R. injection R as <-. rewrite G in G'. injection G' as <-. symmetry. exact Pa.
    Qed.

    (** ** The variables of the loaded tree *)
    Variables (ws : list W) (f : W -> W).
    Hypothesis Names : NoDup (map vname ws).
    Hypothesis Keep : forall w, vname (f w) = vname w /\ vk (f w) = vk w /\ vdom (f w) = vdom w.

    Lemma position_nth : forall us v w, NoDup (map vname us) -> nth_error us v = Some w -> position (vname w) (map f us) = Some v.
    Proof.
      intro us. induction us as [|u us IH]; intros v w N E; [destruct v; discriminate E|]. cbn [map] in N |- *. apply NoDup_cons_iff in N. destruct N as (N1 & N2). destruct v as [|v]; cbn [nth_error] in E.
      - injection E as ->. cbn [position]. destruct (position (vname w) (map f us)) as [k|] eqn:P.
        + exfalso. apply N1. clear - P Keep. revert k P. induction us as [|u us IH]; intros k P; [discriminate P|]. cbn [map position] in P. destruct (position (vname w) (map f us)) as [k'|] eqn:P'.
          * right. apply (IH k' eq_refl).
          * destruct (String.eqb_spec (vname w) (vname (f u))) as [E|_]; [|discriminate P]. left. rewrite E. symmetry. apply Keep.
        + rewrite (proj1 (Keep w)), String.eqb_refl. reflexivity.
      - cbn [position]. rewrite (IH v w N2 E). reflexivity.
    Qed.
    Lemma var_of_nth : forall v w, nth_error ws v = Some w -> var_of (map f ws) (vname w) = Ok (v, f w).
    Proof.
      intros v w E. unfold var_of. rewrite (position_nth ws v w Names E). rewrite (map_nth_error f v ws E). reflexivity.
    Qed.

    (** What the codec must do on a node. *)
    Definition inner_lossless (n : inner F) : Prop :=
      (exists w, nth_error ws (i_var n) = Some w /\ forall s, In s (i_splits n) -> set_parse C (vk w) (set_json C s) = Ok s) /\
      (forall v s, In (v, s) (i_path n) -> v < length ws).
    Definition dists_lossless (ds : list (dist F)) : Prop :=
      forall v d w, nth_error ds v = Some d -> nth_error ws v = Some w -> dist_parse C (vdom w) (dist_json C d) = Ok d.

    Lemma child_not_seen : forall n post pre c, innernodes J = pre ++ n :: post -> parents_first (innernodes J) -> In c (i_children n) -> seen (map i_idx (pre ++ [n])) c = None.
    Proof.
      intros n post pre c E P I. destruct c as [j|]; [|reflexivity]. unfold seen. rewrite mem_false; [reflexivity|]. intro Ij.
      assert (InJ : In n (innernodes J)) by (rewrite E; apply in_or_app; right; left; reflexivity).
      apply In_nth_error in I. destruct I as (k & Ek). destruct (nth_error (i_splits n) k) as [s|] eqn:Es.
      - destruct (child_ok J T n k _ s InJ Ek Es) as (i' & m & Ei & G & Pm & _). injection Ei as <-.
        apply in_map_iff in Ij. destruct Ij as (n' & En' & In'). assert (InJ' : In n' (innernodes J)). { rewrite E. apply in_app_or in In'. apply in_or_app. destruct In' as [In'|[<-|[]]]; [left; exact In'|right; left; reflexivity]. }
        pose proof (in_get_inner J (ids J T) n' InJ') as G'. rewrite En' in G'. unfold get_node in G. rewrite G' in G. injection G as <-. cbn [n_parent] in Pm.
        (* n' is listed up to n, and its parent n before it *)
        assert (Hn : exists a b, pre ++ [n] = a ++ n' :: b) by (apply in_split; exact In'). destruct Hn as (a & b & Ea).
        assert (Ein : In (i_idx n) (map i_idx a)). { apply (P a n' (b ++ post) (i_idx n)); [|exact Pm]. rewrite E. change (n :: post) with ([n] ++ post). rewrite app_assoc, Ea, <- app_assoc. reflexivity. }
        pose proof (ids J T) as Nd. rewrite E in Nd. rewrite map_app in Nd. cbn [map] in Nd.
        (* a is a strict prefix of pre ++ [n], hence of pre *)
        assert (Ha : In (i_idx n) (map i_idx pre)).
        { destruct b as [|x b] using rev_ind.
          - apply app_inj_tail in Ea. destruct Ea as (-> & _). exact Ein.
          - clear IHb. replace (a ++ n' :: b ++ [x]) with ((a ++ n' :: b) ++ [x]) in Ea by (rewrite <- app_assoc; reflexivity). apply app_inj_tail in Ea. destruct Ea as (-> & _). rewrite map_app. apply in_or_app. left. exact Ein. }
        clear - Nd Ha. rewrite <- app_assoc in Nd. cbn [app] in Nd. apply NoDup_remove_2 in Nd. apply Nd. apply in_or_app. left. exact Ha.
      - apply nth_error_None in Es. rewrite <- (lengths J T n InJ) in Es. apply nth_error_None in Es. congruence.
    Qed.

    Lemma path_json_ok : forall p, (forall v s, In (v, s) p -> v < length ws) -> exists js, mapM (step_json C ws) p = Ok js.
    Proof.
      induction p as [|[v s] p IH]; intro H; [exists []; reflexivity|]. destruct IH as (js & IH); [intros; eapply H; right; eassumption|].
      cbn [mapM]. rewrite IH. unfold step_json at 1. unfold name_at. cbn [fst snd]. destruct (nth_error ws v) as [w|] eqn:E; [eexists; reflexivity|]. exfalso. apply nth_error_None in E. specialize (H v s (or_introl eq_refl)). lia.
    Qed.
    Lemma children_json_ok : forall n, In n (innernodes J) -> exists js, mapM child_json (i_children n) = Ok js.
    Proof.
      intros n I. assert (H : forall c, In c (i_children n) -> exists i, c = Some i).
      { intros c Ic. apply In_nth_error in Ic. destruct Ic as (k & Ek). destruct (nth_error (i_splits n) k) as [s|] eqn:Es; [destruct (child_ok J T n k c s I Ek Es) as (i & _ & E & _); exists i; exact E|].
        apply nth_error_None in Es. rewrite <- (lengths J T n I) in Es. apply nth_error_None in Es. congruence. }
      induction (i_children n) as [|c cs IH]; [exists []; reflexivity|]. destruct IH as (js & IH); [intros c' Ic; apply H; right; exact Ic|]. destruct (H c (or_introl eq_refl)) as (i & ->). rewrite mapM_cons, IH. eexists. reflexivity.
    Qed.

    Lemma inner_step : forall pre n post J1, innernodes J = pre ++ n :: post -> parents_first (innernodes J) -> inner_lossless n ->
      innernodes J1 = map (restrict (map i_idx pre)) pre ->
      exists d, inner_to_json C ws J n = Ok d /\
        inner_from_json C (map f ws) J1 d = Ok (with_nodes J1 (map (restrict (map i_idx (pre ++ [n]))) (pre ++ [n])) (leaves J1)).
    Proof.
      intros pre n post J1 E P ((w & Ew & Ls) & Lp) E1. assert (InJ : In n (innernodes J)) by (rewrite E; apply in_or_app; right; left; reflexivity).
      assert (G : get_node J (i_idx n) = Some (NInner n)) by (unfold get_node; rewrite (in_get_inner J (ids J T) n InJ); reflexivity).
      assert (Fresh : ~ In (i_idx n) (map i_idx pre)). { pose proof (ids J T) as Nd. rewrite E, map_app in Nd. cbn [map] in Nd. rewrite <- app_assoc in Nd. cbn [app] in Nd. apply NoDup_remove_2 in Nd. intro H. apply Nd. apply in_or_app. left. exact H. }
      destruct (path_json_ok (i_path n) Lp) as (pj & Epj). destruct (children_json_ok n InJ) as (cj & Ecj).
      destruct (mount_step (map i_idx pre) pre (n :: post) (i_idx n) (NInner n) J1 (jopt (match place_of J (i_parent n) (i_idx n) with Ok k => k | Err _ => None end))) as (ko & Ek & H); [exact E|exact G|exact Fresh| |exact E1|].
      { intros p Ep. apply (P pre n post p E Ep). }
      cbn [n_parent n_path] in Ek, H. rewrite Ek in H. destruct H as (H1 & H2); [intros k ->; reflexivity|].
      eexists. split.
      - unfold inner_to_json, name_at. rewrite Ew. cbn [bind]. rewrite Epj. cbn [bind]. rewrite Ecj. cbn [bind]. rewrite Ek. cbn [bind]. reflexivity.
      - unfold inner_from_json. cbn [jget obj_get String.eqb Ascii.eqb Bool.eqb bind]. rewrite as_nat_jnat. cbn [bind as_str]. rewrite (var_of_nth _ _ Ew). cbn [bind jiter snd fst]. rewrite (proj1 (proj2 (Keep w))).
        rewrite mapM_map, (mapM_ok _ _ _ (fun s => s)) by (intros s Is; apply Ls; exact Is). cbn [bind]. rewrite map_id, H1. cbn [bind]. rewrite as_nat_jnat. cbn [bind]. rewrite H2. cbn [bind fst snd]. f_equal.
        unfold put_inner. cbn [i_idx]. assert (Gn : get_inner (with_nodes J1 (map (restrict (map i_idx pre ++ [i_idx n])) pre) (leaves J1)) (i_idx n) = None).
        { unfold get_inner. cbn [innernodes with_nodes]. rewrite find_restrict. destruct (find (fun m => Nat.eqb (i_idx m) (i_idx n)) pre) as [m|] eqn:Ef; [|reflexivity]. exfalso. apply find_some in Ef. destruct Ef as (Im & Em). apply Nat.eqb_eq in Em. apply Fresh. rewrite <- Em. apply in_map. exact Im. }
        rewrite Gn. cbn [innernodes leaves with_nodes]. unfold with_nodes. f_equal. rewrite !map_app. cbn [map]. f_equal. f_equal. unfold restrict. f_equal.
        transitivity (map (fun _ : option nat => @None nat) (i_children n)).
        + pose proof (lengths J T n InJ) as L. revert L. generalize (i_children n) (i_splits n). clear. intros cs. induction cs as [|c cs IH]; intros [|x ss] L; try discriminate L; [reflexivity|]. cbn [map]. f_equal. apply IH. cbn in L. lia.
        + apply map_ext_in. intros c Ic. symmetry. pose proof (child_not_seen n post pre c E P Ic) as Hc. rewrite map_app in Hc. exact Hc.
    Qed.

    Lemma inner_load : forall post pre J1, innernodes J = pre ++ post -> parents_first (innernodes J) -> (forall n, In n (innernodes J) -> inner_lossless n) ->
      innernodes J1 = map (restrict (map i_idx pre)) pre ->
      exists ds, mapM (inner_to_json C ws J) post = Ok ds /\
        load (inner_from_json C (map f ws)) J1 ds = Ok (with_nodes J1 (map (restrict (map i_idx (innernodes J))) (innernodes J)) (leaves J1)).
    Proof.
      intro post. induction post as [|n post IH]; intros pre J1 E P L E1.
      - exists []. split; [reflexivity|]. cbn [load]. rewrite app_nil_r in E. rewrite <- E in E1. rewrite <- E1. destruct J1; reflexivity.
      - destruct (inner_step pre n post J1 E P) as (d & Ed & El); [apply L; rewrite E; apply in_or_app; right; left; reflexivity|exact E1|].
        destruct (IH (pre ++ [n]) (with_nodes J1 (map (restrict (map i_idx (pre ++ [n]))) (pre ++ [n])) (leaves J1))) as (ds & Eds & Elds); [rewrite E, <- app_assoc; reflexivity|exact P|exact L|reflexivity|].
        exists (d :: ds). rewrite mapM_cons, Ed. cbn [bind]. rewrite Eds. split; [reflexivity|]. cbn [load]. rewrite El. cbn [bind]. rewrite Elds. reflexivity.
    Qed.

    Lemma lookup_seq : forall (ds : list (dist F)) a v, lookup (combine (seq a (length ds)) ds) (a + v) = nth_error ds v.
    Proof.
      intro ds. induction ds as [|d ds IH]; intros a v; [destruct v; reflexivity|]. cbn [length seq combine lookup]. destruct v as [|v].
      - rewrite Nat.add_0_r, Nat.eqb_refl. reflexivity.
      - destruct (Nat.eqb_spec a (a + S v)) as [H|_]; [lia|]. replace (a + S v) with (S a + v) by lia. apply IH.
    Qed.
    Lemma dists_entries : forall ds us a, length ds = length us -> (forall v w, nth_error us v = Some w -> nth_error ws (a + v) = Some w) ->
      (forall v d w, nth_error ds v = Some d -> nth_error us v = Some w -> dist_parse C (vdom w) (dist_json C d) = Ok d) ->
      mapM (fun e : string * json num => do vw <- var_of (map f ws) (fst e); do x <- dist_parse C (vdom (snd vw)) (snd e); Ok (fst vw, x)) (combine (map vname us) (map (dist_json C) ds))
      = Ok (combine (seq a (length ds)) ds).
    Proof.
      intro ds. induction ds as [|d ds IH]; intros [|u us] a L H Hd; try discriminate L; [reflexivity|]. cbn [map combine length seq]. rewrite mapM_cons. cbn [fst snd].
      assert (Ea : nth_error ws a = Some u) by (rewrite <- (Nat.add_0_r a); apply H; reflexivity). rewrite (var_of_nth _ _ Ea). cbn [bind fst snd]. rewrite (proj2 (proj2 (Keep u))), (Hd 0 d u eq_refl eq_refl). cbn [bind].
      rewrite (IH us (S a)); [reflexivity|cbn in L; lia| |].
      - intros v w E. replace (S a + v) with (a + S v) by lia. apply H. exact E.
      - intros v d' w E1 E2. apply (Hd (S v) d' w E1 E2).
    Qed.
    Lemma dists_round : forall ds, length ds = length ws \/ ds = [] -> dists_lossless ds -> dists_parse C (map f ws) (dists_json C ws ds) = Ok ds.
    Proof.
      intros ds L H. unfold dists_parse, dists_json. assert (E : mapM (fun e : string * json num => do vw <- var_of (map f ws) (fst e); do x <- dist_parse C (vdom (snd vw)) (snd e); Ok (fst vw, x)) (combine (map vname ws) (map (dist_json C) ds)) = Ok (combine (seq 0 (length ds)) ds)).
      { destruct L as [L| ->]; [apply dists_entries; [exact L|intros v w E; exact E|exact H]|]. destruct ws; reflexivity. }
      rewrite E. cbn [bind]. assert (Ln : length (combine (seq 0 (length ds)) ds) = length ds) by (rewrite combine_length, seq_length; lia). rewrite Ln.
      assert (K : forall n, n <= length ds -> mapM (fun v => match lookup (combine (seq 0 (length ds)) ds) v with Some x => Ok x | None => Err KeyError end) (seq (length ds - n) n) = Ok (skipn (length ds - n) ds)).
      { intro n. induction n as [|n IH]; intro Le; [rewrite Nat.sub_0_r, skipn_all; reflexivity|]. cbn [seq]. rewrite mapM_cons. pose proof (lookup_seq ds 0 (length ds - S n)) as Lk. cbn [Nat.add] in Lk. rewrite Lk.
        destruct (nth_error ds (length ds - S n)) as [d|] eqn:En; [|apply nth_error_None in En; lia]. cbn [bind]. replace (S (length ds - S n)) with (length ds - n) by lia. assert (Le' : n <= length ds) by lia. specialize (IH Le'). unfold var in *. rewrite IH. cbn [bind]. f_equal.
        clear - En Le. replace (length ds - n) with (S (length ds - S n)) by lia. revert En. generalize (length ds - S n). clear. intro k. revert ds. induction k as [|k IHk]; intros [|x ds] E; try discriminate E; [injection E as ->; reflexivity|]. cbn [skipn]. change (match ds with [] => [] | _ :: l => skipn k l end) with (skipn (S k) ds). apply IHk. exact E. }
      specialize (K (length ds) (le_n _)). rewrite Nat.sub_diag in K. exact K.
    Qed.

    Lemma leaf_step : forall pre l post J1, leaves J = pre ++ l :: post -> (length (l_dists l) = length ws) -> dists_lossless (l_dists l) ->
      innernodes J1 = map (restrict (map i_idx (innernodes J) ++ map l_idx pre)) (innernodes J) -> leaves J1 = pre ->
      exists d, leaf_to_json C ws J l = Ok d /\
        leaf_from_json C (map f ws) J1 d = Ok (with_nodes J1 (map (restrict (map i_idx (innernodes J) ++ map l_idx (pre ++ [l]))) (innernodes J)) (pre ++ [l])).
    Proof.
      intros pre l post J1 E Ld Ll E1 E2. assert (InJ : In l (leaves J)) by (rewrite E; apply in_or_app; right; left; reflexivity).
      assert (G : get_node J (l_idx l) = Some (NLeaf l)). { destruct (in_get_leaf J (ids J T) l InJ) as (A & B). unfold get_node. rewrite B, A. reflexivity. }
      assert (Fresh : ~ In (l_idx l) (map i_idx (innernodes J) ++ map l_idx pre)). { pose proof (ids J T) as Nd. rewrite E, map_app in Nd. cbn [map] in Nd. rewrite app_assoc in Nd. apply NoDup_remove_2 in Nd. intro H. apply Nd. apply in_or_app. left. exact H. }
      destruct (mount_step (map i_idx (innernodes J) ++ map l_idx pre) (innernodes J) [] (l_idx l) (NLeaf l) J1 (match place_of J (l_parent l) (l_idx l) with Ok (Some k) => jnat k | _ => JInt (-1) end)) as (ko & Ek & H); [rewrite app_nil_r; reflexivity|exact G|exact Fresh| |exact E1|].
      { intros p Ep. pose proof (parent_ok J T _ _ G) as P. rewrite Ep in P. destruct P as (n & Gn & _). destruct (get_inner_some J p n Gn) as (In_ & <-). apply in_map. exact In_. }
      cbn [n_parent n_path] in Ek, H. rewrite Ek in H. destruct H as (H1 & H2); [intros k ->; reflexivity|].
      eexists. split.
      - unfold leaf_to_json. rewrite Ek. cbn [bind]. reflexivity.
      - unfold leaf_from_json. cbn [jget obj_get String.eqb Ascii.eqb Bool.eqb bind]. rewrite as_nat_jnat. cbn [bind as_rational]. rewrite H1. cbn [bind].
        rewrite (dists_round _ (or_introl Ld) Ll). cbn [bind]. replace (match ko with Some k => jnat k | None => JInt (-1) end) with (match ko with Some k => jnat k | _ => @JInt num (-1) end) by reflexivity. rewrite H2. cbn [bind fst snd]. rewrite as_nat_jnat. cbn [bind]. f_equal.
        unfold put_leaf. cbn [l_idx]. assert (Gn : get_leaf (with_nodes J1 (map (restrict ((map i_idx (innernodes J) ++ map l_idx pre) ++ [l_idx l])) (innernodes J)) (leaves J1)) (l_idx l) = None).
        { unfold get_leaf. cbn [leaves with_nodes]. rewrite E2. destruct (find (fun m => Nat.eqb (l_idx m) (l_idx l)) pre) as [m|] eqn:Ef; [|reflexivity]. exfalso. apply find_some in Ef. destruct Ef as (Im & Em). apply Nat.eqb_eq in Em. apply Fresh. apply in_or_app. right. rewrite <- Em. apply in_map. exact Im. }
        rewrite Gn. cbn [innernodes leaves with_nodes]. rewrite E2. unfold with_nodes. cbn [n_vars full root priors]. rewrite map_app, app_assoc. cbn [map]. destruct l; reflexivity.
    Qed.
    Lemma leaf_load : forall post pre J1, leaves J = pre ++ post -> (forall l, In l (leaves J) -> length (l_dists l) = length ws /\ dists_lossless (l_dists l)) ->
      innernodes J1 = map (restrict (map i_idx (innernodes J) ++ map l_idx pre)) (innernodes J) -> leaves J1 = pre ->
      exists ds, mapM (leaf_to_json C ws J) post = Ok ds /\
        load (leaf_from_json C (map f ws)) J1 ds = Ok (with_nodes J1 (map (restrict (map i_idx (innernodes J) ++ map l_idx (leaves J))) (innernodes J)) (leaves J)).
    Proof.
      intro post. induction post as [|l post IH]; intros pre J1 E L E1 E2.
      - exists []. split; [reflexivity|]. cbn [load]. rewrite app_nil_r in E. rewrite E, <- E1, <- E2. destruct J1; reflexivity.
      - assert (InJ : In l (leaves J)) by (rewrite E; apply in_or_app; right; left; reflexivity). destruct (L l InJ) as (La & Lb). destruct (leaf_step pre l post J1 E La Lb E1 E2) as (d & Ed & El).
        destruct (IH (pre ++ [l]) (with_nodes J1 (map (restrict (map i_idx (innernodes J) ++ map l_idx (pre ++ [l]))) (innernodes J)) (pre ++ [l]))) as (ds & Eds & Elds); [rewrite E, <- app_assoc; reflexivity|exact L|reflexivity|reflexivity|].
        exists (d :: ds). rewrite mapM_cons, Ed. cbn [bind]. rewrite Eds. split; [reflexivity|]. cbn [load]. rewrite El. cbn [bind]. rewrite Elds. reflexivity.
    Qed.

    Lemma restrict_all : map (restrict (map i_idx (innernodes J) ++ map l_idx (leaves J))) (innernodes J) = innernodes J.
    Proof.
      transitivity (map (fun n => n) (innernodes J)); [|apply map_id]. apply map_ext_in. intros n I. destruct n as [i p v ss cs m pa]. unfold restrict. cbn [i_idx i_parent i_var i_splits i_children i_samples i_path]. f_equal.
      transitivity (map (fun c => c) cs); [|apply map_id]. apply map_ext_in. intros c Ic. apply In_nth_error in Ic. destruct Ic as (k & Ek).
      pose proof (lengths J T _ I) as L. cbn [i_children i_splits] in L. destruct (nth_error ss k) as [s|] eqn:Es; [|apply nth_error_None in Es; rewrite <- L in Es; apply nth_error_None in Es; congruence].
      destruct (child_ok J T _ k c s I Ek Es) as (j & mm & -> & G & _). unfold seen. replace (existsb (Nat.eqb j) (map i_idx (innernodes J) ++ map l_idx (leaves J))) with true; [reflexivity|]. symmetry. apply mem_spec. apply in_or_app.
      unfold get_node in G. destruct (get_inner J j) as [n'|] eqn:Gi; [left; destruct (get_inner_some J j n' Gi) as (A & <-); apply in_map; exact A|]. right. destruct (get_leaf J j) as [l'|] eqn:Gl; [|discriminate G].
      unfold get_leaf in Gl. apply find_some in Gl. destruct Gl as (A & B). apply Nat.eqb_eq in B. rewrite <- B. apply in_map. exact A.
    Qed.
  End Load.
End Nodes.
