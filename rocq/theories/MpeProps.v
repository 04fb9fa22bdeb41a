(** C44: enumeration of the most probable explanations. *)
Require Import QArith Lqa List Bool Arith Lia Permutation Sorted Morphisms.
Require Import Verif.Base Verif.NumBase Verif.DiscreteModel Verif.MpeModel Verif.MpeSpec Verif.MpeProofs Verif.MpeProofs2 Verif.MpeProofs3.
Import ListNotations.
Open Scope Q_scope.

(** ** The search order *)
Definition lexlt (len : nat -> nat) (x y : nat) : Prop := (len x < len y \/ len x = len y /\ x < y)%nat.
Lemma insert_v_lex : forall len x m, StronglySorted (lexlt len) m -> (forall y, In y m -> (y < x)%nat) -> StronglySorted (lexlt len) (insert_v len x m).
Proof.
  intros len x m. induction m as [|y m IH]; intros S' L; cbn [insert_v].
  - constructor; constructor.
  - apply StronglySorted_inv in S'. destruct S' as [S' F]. destruct (Nat.ltb_spec (len x) (len y)) as [K|K].
    + constructor; [constructor; assumption|]. constructor; [left; exact K|]. eapply Forall_impl; [|exact F]. unfold lexlt. intros z Hz. lia.
    + constructor; [apply IH; [exact S'|intros; apply L; right; assumption]|].
      eapply Permutation_Forall; [symmetry; apply insert_v_perm|]. constructor; [|exact F].
      pose proof (L y (or_introl eq_refl)). unfold lexlt. lia.
Qed.
Lemma order_by_lex : forall len n, StronglySorted (lexlt len) (order_by len (seq 0 n)).
Proof.
  intros len n. unfold order_by.
  assert (G : forall k a m, StronglySorted (lexlt len) m -> (forall y, In y m -> (y < a)%nat) ->
     StronglySorted (lexlt len) (fold_left (fun m x => insert_v len x m) (seq a k) m)).
  { induction k as [|k IH]; intros a m S' L; cbn [seq fold_left]; [exact S'|]. apply IH.
    - apply insert_v_lex; assumption.
    - intros y I. apply (Permutation_in _ (insert_v_perm len a m)) in I. destruct I as [<-|I]; [lia|]. apply L in I. lia. }
  apply G; [constructor|intros y []].
Qed.

Section Statement.
  Variable V : Type.
  Variable veqb : V -> V -> bool.
  Hypothesis veqb_ok : forall a b, veqb a b = true <-> a = b.
  Notation dist := (dist V).

  (** At most one variable is symbolic (or integer), and it has more states than
      every other one, or as many as some and is listed after those. *)
  Definition symbolic_last (ds : list dist) (states : list (list V)) : Prop :=
    forall i d, nth_error ds i = Some d -> numeric V d = false ->
    forall j d', nth_error ds j = Some d' -> j <> i ->
      (length (nth j states []) < length (nth i states []) \/ length (nth j states []) = length (nth i states []) /\ j < i)%nat.

  Definition mass_at (ds : list dist) (x : nat) (v : V) : Q := match nth_error ds x with Some d => mass V d v | None => 1 end.

  Lemma divisor_pos : forall given ds div, Forall (sound V) ds -> match given with Some g => 0 < g | None => True end ->
    divisor_of V given ds = Ok div -> 0 < div.
  Proof.
    intros given ds div F G H. unfold divisor_of in H.
    destruct (max_densities V ds) as [ls|e] eqn:E; cbn in H; [|discriminate].
    destruct given as [g|]; [injection H as <-; exact G|].
    assert (P : Forall (fun q => 0 < q) ls).
    { clear H G. revert ls E. induction F as [|d ds S' F IH]; intros ls E; cbn in E; [injection E as <-; constructor|].
      destruct (numeric V d); [|apply IH; exact E]. destruct (k_mpe V d) as [|[v q] r] eqn:K; [discriminate|].
      destruct (max_densities V ds) as [l'|e]; cbn in E; [|discriminate]. injection E as <-. constructor; [|apply IH; reflexivity].
      destruct S' as [_ S']. rewrite K in S'. apply (S' v q). left. reflexivity. }
    destruct ls as [|l ls]; injection H as <-; [reflexivity|].
    apply Forall_cons_iff in P. destruct (qmaxl_spec ls l) as (A & _). destruct P. lra.
  Qed.
  Lemma max_densities_ok : forall ds, Forall (sound V) ds -> exists ls, max_densities V ds = Ok ls /\ Forall (fun q => 0 < q) ls.
  Proof.
    intros ds F. induction F as [|d ds [N S'] F (ls & E & P)]; cbn; [exists []; split; [reflexivity|constructor]|].
    destruct (numeric V d); [|exists ls; split; assumption]. destruct (k_mpe V d) as [|[v q] r]; [contradiction|].
    rewrite E. cbn. exists (q :: ls). split; [reflexivity|]. constructor; [apply (S' v q); left; reflexivity|exact P].
  Qed.

  Definition pprod (lik : nat -> V -> Q) (a : list (nat * V)) : Q := fold_right (fun xv m => lik (fst xv) (snd xv) * m) 1 a.
  Lemma pprod_perm : forall lik a b, Permutation a b -> pprod lik a == pprod lik b.
  Proof.
    intros lik a b P. induction P; cbn [pprod fold_right]; fold (pprod lik); try reflexivity.
    - fold (pprod lik l). fold (pprod lik l'). rewrite IHP. reflexivity.
    - fold (pprod lik l). ring.
    - rewrite IHP1. exact IHP2.
  Qed.
  Lemma joint_pprod : forall lik p x, joint lik x p == pprod lik (combine (seq x (length p)) p).
  Proof.
    intros lik p. induction p as [|v p IH]; intro x; cbn [joint length seq combine pprod fold_right fst snd]; [reflexivity|].
    fold (pprod lik (combine (seq (S x) (length p)) p)). rewrite IH. reflexivity.
  Qed.
  Lemma says_joint : forall lik a p, NoDup (map fst a) -> says a p -> pprod lik a == joint lik 0 p.
  Proof.
    intros lik a p D [Ln H]. rewrite joint_pprod. apply pprod_perm.
    assert (D1 : NoDup a) by (apply (NoDup_map_inv fst); exact D).
    assert (M : map fst (combine (seq 0 (length p)) p) = seq 0 (length p)).
    { assert (G : forall (A B : Type) (l : list A) (m : list B), length l = length m -> map fst (combine l m) = l).
      { intros A B l. induction l as [|z l IH]; intros [|y m] E; try discriminate; [reflexivity|]. cbn. f_equal. apply IH. injection E as E. exact E. }
      apply G. apply seq_length. }
    symmetry. apply NoDup_Permutation_bis.
    - apply (NoDup_map_inv fst). rewrite M. apply seq_NoDup.
    - rewrite combine_length, seq_length. lia.
    - intros [x v] I. apply state_of_in; [exact D|].
      assert (G : forall q k, In (x, v) (combine (seq k (length q)) q) -> (k <= x)%nat /\ nth_error q (x - k) = Some v).
      { induction q as [|u q IH]; intros k J; [destruct J|]. cbn in J. destruct J as [E|J].
        - injection E as <- <-. rewrite Nat.sub_diag. split; [lia|reflexivity].
        - apply IH in J. destruct J as [J1 J2]. split; [lia|]. replace (x - k)%nat with (S (x - S k)) by lia. exact J2. }
      destruct (G p 0%nat I) as [_ E]. rewrite Nat.sub_0_r in E. rewrite H; [exact E|].
      apply nth_error_Some. congruence.
  Qed.

  (** The solver, given distributions whose explanation states have positive
      likelihoods, equal to the density (or probability) the solver computes for
      them, terminates and enumerates all combinations of states in non-increasing
      order of likelihood; asked for k of them it yields the first k.
      Missing from the full claim: symbolic variables that are not examined last, and
      states with several values of a symbolic variable; both are refuted below. *)
  Theorem C44_solver_partial : forall given ds states, ds <> [] ->
    Forall (sound V) ds -> match given with Some g => 0 < g | None => True end ->
    Forall2 (fun d st => states_in (k_mpe V d) st) ds states -> symbolic_last ds states ->
    exists s, init V veqb given ds = Ok s /\
    exists N, forall fuel, (N <= fuel)%nat -> exists out,
      solve V veqb fuel s 0 = Ok out /\ enumerates states (mass_at ds) out /\
      forall k, solve V veqb fuel s (S k) = Ok (firstn (S k) out).
  Proof.
    intros given ds states NE F G St Sy.
    destruct (max_densities_ok ds F) as (ls & El & Pl).
    assert (Ed : exists div, divisor_of V given ds = Ok div).
    { unfold divisor_of. rewrite El. cbn. destruct given; [eexists; reflexivity|]. destruct ls; eexists; reflexivity. }
    destruct Ed as (div & Ed). pose proof (divisor_pos given ds div F G Ed) as Dp.
    destruct ds as [|d0 ds']; [contradiction|]. remember (d0 :: ds') as ds eqn:Eds.
    destruct (bests V veqb veqb_ok div Dp ds F d0) as (bs & Eb & Fb).
    pose proof (init_ok V veqb veqb_ok div Dp ds F d0 bs Eb Fb) as K.
    set (s := Solver V (map (numeric V) ds) (map (domain_of V veqb) ds) (map (constraints_of V veqb div) ds)
      (lower_bounds (order_of V (map (constraints_of V veqb div) ds)) bs)) in *. cbv zeta in K.
    destruct K as (K1 & K2 & K3 & K4 & K5 & K6 & K7).
    exists s. split. { unfold init. rewrite Ed. cbn [bind]. rewrite Eb. reflexivity. }
    assert (Nv : nvars V s = length ds) by (unfold nvars; cbn; rewrite map_length; reflexivity).
    assert (Sn : forall x, (x < length ds)%nat -> sound V (nth x ds d0)) by (intros x L; eapply Forall_forall in F; [exact F|apply nth_In; exact L]).
    assert (Cx : forall x, (x < length ds)%nat -> con V s x = constraints_of V veqb div (nth x ds d0)).
    { intros x L. unfold con. cbn. apply nth_map_d. exact L. }
    assert (Lst : length states = length ds) by (symmetry; eapply F2_length; exact St).
    assert (Sx : forall x, (x < length ds)%nat -> NoDup (nth x states []) /\ forall v, In v (nth x states []) <-> In v (map fst (con V s x))).
    { intros x L. rewrite (Cx x L). destruct (con_spec V veqb veqb_ok div Dp _ (Sn x L)) as (_ & _ & _ & M & _).
      assert (Q1 : states_in (k_mpe V (nth x ds d0)) (nth x states [])).
      { clear -St L. revert x L. induction St as [|d st ds states H St IH]; intros x L; cbn in L; [lia|]. destruct x as [|x]; [exact H|]. apply IH. lia. }
      destruct Q1 as [Q1 Q2]. split; [exact Q1|]. intro v. rewrite Q2, M. reflexivity. }
    assert (Lx : forall x, (x < length ds)%nat -> length (con V s x) = length (nth x states [])).
    { intros x L. rewrite <- (map_length fst). symmetry. apply Permutation_length. apply NoDup_Permutation.
      - apply Sx. exact L.
      - rewrite (Cx x L). apply (con_spec V veqb veqb_ok div Dp _ (Sn x L)).
      - apply Sx. exact L. }
    assert (Kept : forall pre x post, order V s = pre ++ x :: post -> post <> [] -> nth x (kept V s) false = true).
    { intros pre x post E N. assert (Ix : In x (order V s)) by (rewrite E; apply in_elt).
      assert (In x (seq 0 (length ds))) as Jx by (eapply Permutation_in; [|exact Ix]; rewrite <- Nv; apply order_by_perm). apply in_seq in Jx.
      cbn [kept s]. rewrite (nth_map_d _ _ _ _ _ d0) by lia.
      destruct (numeric V (nth x ds d0)) eqn:En; [reflexivity|]. exfalso.
      destruct post as [|y post]; [contradiction|].
      assert (Iy : In y (order V s)) by (rewrite E; apply in_or_app; right; right; left; reflexivity).
      assert (In y (seq 0 (length ds))) as Jy by (eapply Permutation_in; [|exact Iy]; rewrite <- Nv; apply order_by_perm). apply in_seq in Jy.
      pose proof (order_by_lex (fun x => length (con V s x)) (nvars V s)) as Lex.
      change (order_by (fun x => length (con V s x)) (seq 0 (nvars V s))) with (order V s) in Lex. rewrite E in Lex.
      apply sorted_app in Lex. destruct Lex as (_ & Lex & _). apply StronglySorted_inv in Lex. destruct Lex as [_ Lex].
      apply Forall_cons_iff in Lex. destruct Lex as [Lex _]. unfold lexlt in Lex. rewrite !Lx in Lex by lia.
      assert (Ny : y <> x) by (intros ->; lia).
      assert (Lx' : (x < length ds)%nat) by lia. assert (Ly' : (y < length ds)%nat) by lia.
      pose proof (Sy x (nth x ds d0) (nth_error_nth' ds d0 Lx') En y (nth y ds d0) (nth_error_nth' ds d0 Ly') Ny). lia. }
    assert (Pm : Permutation (order V s) (seq 0 (nvars V s))) by apply order_by_perm.
    assert (No : order V s <> []).
    { intro Z. rewrite Z in Pm. apply Permutation_length in Pm. rewrite seq_length, Nv, Eds in Pm. discriminate. }
    destruct (solve_all V veqb s Pm Kept K1 K2 K3 K4 K5 K6 (fun x => factor V div (nth x ds d0)) K7 No) as (N & HN).
    exists N. intros fuel Hf. destruct (HN fuel Hf) as (out & done & E & Y & O & So & P).
    exists out. split; [exact E|]. split; [|intro k; apply solve_cut; exact E].
    (* the picks *)
    assert (Ct : forall x, NoDup (map fst (con V s x))).
    { intro x. destruct (le_lt_dec (length ds) x) as [L|L].
      - unfold con. cbn. rewrite nth_overflow by (rewrite map_length; exact L). constructor.
      - rewrite (Cx x L). apply (con_spec V veqb veqb_ok div Dp _ (Sn x L)). }
    assert (Df : exists v : V, True).
    { destruct (order V s) as [|x o] eqn:Eo; [contradiction|]. pose proof (K3 x (or_introl eq_refl)) as Nx. destruct (con V s x) as [|[v w] c]; [contradiction|]. exists v. exact I. }
    destruct Df as (dflt & _).
    assert (In_done : forall x, In x done -> In (s_asg V x) (comps V s (order V s))).
    { intros x I. eapply Permutation_in; [exact P|]. apply in_map. exact I. }
    split.
    - exists (map (pick V s dflt) (map (s_asg V) done)). split.
      + eapply perm_trans; [apply Permutation_map; exact P|]. apply picks_perm; [exact Ct|rewrite Nv; exact Lst|].
        intros x L. rewrite Nv in L. apply Sx. exact L.
      + assert (Gd : Forall2 (fun x al => yields V veqb s x al /\ In x done /\ sol_ok V s x) done out).
        { clear -Y O. assert (H : forall l m, Forall2 (yields V veqb s) l m -> (forall x, In x l -> In x done /\ sol_ok V s x) ->
            Forall2 (fun x al => yields V veqb s x al /\ In x done /\ sol_ok V s x) l m).
          { intros l m H. induction H as [|x al l m Hx H IH]; intro W; constructor.
            - split; [exact Hx|]. apply W. left. reflexivity.
            - apply IH. intros; apply W; right; assumption. }
          apply H; [exact Y|]. intros x I. split; [exact I|]. eapply Forall_forall in O; eassumption. }
        clear -Gd In_done K7 F Cx veqb_ok Dp Sn Nv.
        assert (H : forall l m, Forall2 (fun x al => yields V veqb s x al /\ In x done /\ sol_ok V s x) l m ->
          Forall2 (fun (al : asg V * Q) p => says (fst al) p /\ snd al == joint (mass_at ds) 0 p) m (map (pick V s dflt) (map (s_asg V) l))).
        { intros l m H. induction H as [|x al l m Hx H IH]; cbn [map]; constructor; [|exact IH].
          destruct Hx as ([Y1 Y2] & I & Ox). pose proof (In_done x I) as Ic.
          rewrite Y1. split; [apply pick_says; exact Ic|].
          rewrite <- (says_joint (mass_at ds) (s_asg V x) (pick V s dflt (s_asg V x))).
          - (* likelihood is the product of the masses *)
            apply comps_in in Ic. destruct Ic as [_ Ic]. clear -Y2 Ic K7 F Cx veqb_ok Dp Sn Nv.
            revert Ic Y2. generalize (s_asg V x). generalize (snd al).
            assert (H : forall a q, Forall (fun xv => In (snd xv) (map fst (con V s (fst xv)))) a -> likelihood V veqb s a = Ok q -> q == pprod (mass_at ds) a).
            { induction a as [|[y v] a IH]; intros q Fa E; cbn [likelihood] in E.
              - injection E as <-. reflexivity.
              - apply Forall_cons_iff in Fa. destruct Fa as [Iv Fa]. cbn [fst snd] in Iv.
                apply in_map_iff in Iv. destruct Iv as ([u w] & Eu & Iv). cbn in Eu. subst u.
                destruct (K7 y v w Iv) as (p & Ep & Hp). rewrite Ep in E. cbn [bind] in E.
                destruct (likelihood V veqb s a) as [r|e]; cbn [bind] in E; [|discriminate]. injection E as <-.
                cbn [pprod fold_right fst snd]. fold (pprod (mass_at ds) a). rewrite (IH r Fa eq_refl).
                assert (Ly : (y < length ds)%nat).
                { destruct (le_lt_dec (length ds) y) as [L|L]; [|exact L]. unfold con in Iv. rewrite nth_overflow in Iv; [destruct Iv|]. fold (nvars V s). lia. }
                assert (Hm : p == mass_at ds y v); [|rewrite Hm; reflexivity].
                unfold mass_at. rewrite (nth_error_nth' _ d0 Ly).
                rewrite (Cx y Ly) in Iv. destruct (con_spec V veqb veqb_ok div Dp _ (Sn y Ly)) as (_ & W & _). destruct (W v w Iv) as [_ ->] in Hp.
                rewrite Hp. apply weight_mass. exact Dp. }
            intros q a. apply H.
          - apply comps_in in Ic. destruct Ic as [-> _]. eapply Permutation_NoDup; [symmetry; apply order_by_perm|apply seq_NoDup].
          - apply pick_says. exact Ic. }
        apply H. exact Gd.
    - (* the order *)
      unfold non_increasing.
      set (C := product (map (fun x => factor V div (nth x ds d0)) (order V s))).
      assert (Cp : 0 < C).
      { unfold C. generalize (order V s). clear -Dp. intro o. induction o as [|x o IH]; [reflexivity|]. unfold product in *. cbn [map fold_right]. apply Qmult_lt_0_compat; [apply factor_pos; exact Dp|exact IH]. }
      assert (Lk : forall x al, In x done -> yields V veqb s x al -> snd al == s_cost V x * C).
      { intros x al I [Y1 Y2]. assert (Ox : sol_ok V s x) by (eapply Forall_forall in O; eassumption).
        destruct (likelihood_ok V veqb s (fun x => factor V div (nth x ds d0)) K7 _ _ Ox) as (l & E1 & E2).
        rewrite Y2 in E1. injection E1 as ->. rewrite E2. pose proof (In_done x I) as Ic. apply comps_in in Ic. destruct Ic as [Ic _]. rewrite Ic. reflexivity. }
      clear -So Y Lk Cp.
      assert (H : forall l m, Forall2 (yields V veqb s) l m -> sols_sorted V l -> (forall x, In x l -> In x done) ->
        StronglySorted (fun p q => q <= p) (map snd m)).
      { intros l m H. induction H as [|x al l m Hx H IH]; intros So' W; cbn [map]; [constructor|].
        apply StronglySorted_inv in So'. destruct So' as [S1 S2]. constructor; [apply IH; [exact S1|intros; apply W; right; assumption]|].
        apply Forall_forall. intros q I. apply in_map_iff in I. destruct I as (bl & <- & I).
        assert (X : exists y, In y l /\ yields V veqb s y bl).
        { clear -H I. induction H as [|y cl l m Hy H IH]; [destruct I|]. destruct I as [->|I]; [exists y; split; [left; reflexivity|exact Hy]|].
          destruct (IH I) as (z & A & B). exists z. split; [right; exact A|exact B]. }
        destruct X as (y & Iy & Yy). rewrite (Lk x al (W x (or_introl eq_refl)) Hx), (Lk y bl (W y (or_intror Iy)) Yy).
        eapply Forall_forall in S2; [|exact Iy]. cbn in S2. apply Qmult_le_compat_r; [exact S2|lra]. }
      apply (H done out Y So). auto.
  Qed.

  Lemma mapM_all : forall A B (f : A -> res B) (R : A -> B -> Prop) l, (forall x, In x l -> exists y, f x = Ok y /\ R x y) ->
    exists r, mapM f l = Ok r /\ Forall2 R l r.
  Proof.
    intros A B f R l. induction l as [|x l IH]; intro H; cbn; [exists []; split; [reflexivity|constructor]|].
    destruct (H x (or_introl eq_refl)) as (y & -> & Ry). cbn. destruct IH as (r & -> & Rr); [intros; apply H; right; assumption|].
    cbn. exists (y :: r). split; [reflexivity|constructor; assumption].
  Qed.
  Lemma choices_nonempty : forall (ls : list (list V)), Forall (fun l => l <> []) ls -> choices ls <> [].
  Proof.
    intros ls H. induction H as [|l ls N H IH]; cbn; [discriminate|]. destruct l as [|v l]; [contradiction|]. cbn.
    destruct (choices ls); [contradiction|discriminate].
  Qed.
  Lemma covers_nonempty : forall ds states lik out, Forall (sound V) ds -> Forall2 (fun d st => states_in (k_mpe V d) st) ds states ->
    covers states lik out -> out <> [].
  Proof.
    intros ds states lik out F St (picks & P & F2) ->. inversion F2; subst. apply Permutation_nil in P.
    apply (choices_nonempty states); [|exact P]. clear -F St. revert F. induction St as [|d st ds states [_ H] St IH]; intro F; constructor.
    - apply Forall_cons_iff in F. destruct F as [[N _] _]. destruct (k_mpe V d) as [|[v q] r]; [contradiction|].
      intros ->. destruct (proj2 (H v)). exists q. left. reflexivity.
    - apply IH. apply Forall_cons_iff in F. apply F.
  Qed.

  (** A leaf of the tree together with the lists of the states of its variables. *)
  Definition good_leaf (ds : list dist) (states : list (list V)) : Prop :=
    ds <> [] /\ Forall (sound V) ds /\ Forall2 (fun d st => states_in (k_mpe V d) st) ds states /\ symbolic_last ds states.

  Lemma kmpe_outs : forall leaves states, Forall2 good_leaf leaves states ->
    exists N, forall fuel, (N <= fuel)%nat -> exists div outs,
      tree_divisor V leaves = Ok div /\ mapM (fun ds => do s <- init V veqb div ds; solve V veqb fuel s 0) leaves = Ok outs /\
      Forall2 (fun ls out => enumerates (snd ls) (mass_at (fst ls)) out /\ out <> []) (combine leaves states) outs.
  Proof.
    intros leaves states H.
    assert (Fs : Forall (sound V) (concat leaves)).
    { clear -H. induction H as [|l st ls sts (_ & S' & _) H IH]; cbn; [constructor|]. apply Forall_app. split; assumption. }
    destruct (max_densities_ok _ Fs) as (ms & Em & Pm).
    assert (Hd : exists div, tree_divisor V leaves = Ok div /\ match div with Some g => 0 < g | None => True end).
    { unfold tree_divisor. rewrite Em. cbn. destruct ms as [|m ms]; eexists; (split; [reflexivity|]); [exact I|].
      apply Forall_cons_iff in Pm. destruct (qmaxl_spec ms m) as (A & _). destruct Pm. lra. }
    destruct Hd as (div & Ed & Dp).
    assert (G : exists N, forall fuel, (N <= fuel)%nat -> exists outs, mapM (fun ds => do s <- init V veqb div ds; solve V veqb fuel s 0) leaves = Ok outs /\
      Forall2 (fun ls out => enumerates (snd ls) (mass_at (fst ls)) out /\ out <> []) (combine leaves states) outs).
    { clear -H Dp veqb_ok. induction H as [|l st ls sts (NE & S' & St & Sy) H (N2 & H2)]; [exists 0%nat; intros fuel _; exists []; split; [reflexivity|constructor]|].
      destruct (C44_solver_partial div l st NE S' Dp St Sy) as (s & Es & N1 & H1).
      exists (N1 + N2)%nat. intros fuel L. destruct (H1 fuel ltac:(lia)) as (out & Eo & En & _). destruct (H2 fuel ltac:(lia)) as (outs & Eos & F).
      exists (out :: outs). split; [cbn; rewrite Es; cbn; rewrite Eo; cbn; rewrite Eos; reflexivity|]. cbn. constructor; [|exact F].
      split; [exact En|]. apply (covers_nonempty l st (mass_at l)); [exact S'|exact St|apply En]. }
    destruct G as (N & G). exists N. intros fuel L. destruct (G fuel L) as (outs & A & B). exists div, outs. repeat split; assumption.
  Qed.
  Lemma heads : forall outs : list (list (asg V * Q)), Forall (fun o => o <> []) outs ->
    exists hs, mapM (head_of V) outs = Ok hs /\ flat V hs = concat outs.
  Proof.
    intros outs H. induction H as [|o outs N H (hs & E & Ef)]; [exists []; split; reflexivity|].
    destruct o as [|x o]; [contradiction|]. cbn. rewrite E. cbn. eexists. split; [reflexivity|].
    unfold flat in *. cbn. rewrite Ef. reflexivity.
  Qed.

  (** The enumeration over the leaves of a tree contains, for every leaf, every
      combination of states exactly once with its likelihood in that leaf.
      Missing from the full claim: the order (refuted below for several leaves). *)
  Theorem C44_kmpe_complete_partial : forall leaves states, Forall2 good_leaf leaves states ->
    exists N, forall fuel, (N <= fuel)%nat -> exists out parts,
      kmpe V veqb fuel leaves 0 = Ok out /\ Permutation out (concat parts) /\
      Forall2 (fun ls part => covers (snd ls) (mass_at (fst ls)) part) (combine leaves states) parts.
  Proof.
    intros leaves states H. destruct (kmpe_outs leaves states H) as (N & G). exists N. intros fuel L.
    destruct (G fuel L) as (div & outs & E1 & E2 & F).
    assert (Ne : Forall (fun o => o <> []) outs).
    { clear -F. induction F as [|x o l outs [_ A] F IH]; constructor; assumption. }
    destruct (heads outs Ne) as (hs & E3 & Ef).
    eexists. exists outs. split; [|split].
    - unfold kmpe. rewrite E1. cbn [bind]. rewrite E2. cbn [bind]. rewrite E3. cbn [bind]. reflexivity.
    - assert (P : Permutation (flat V (heapify (stream_before V) hs)) (concat outs)).
      { rewrite <- Ef. exact (Permutation_flat_map_local _ _ (fun st => fst st :: snd st) _ _ (heapify_perm V hs)). }
      eapply perm_trans; [apply enumerate_all|exact P]. apply Permutation_length in P. lia.
    - clear -F. induction F as [|x o l outs [[A _] _] F IH]; constructor; assumption.
  Qed.

  (** For a tree with a single leaf the order is right as well. *)
  Theorem C44_kmpe_single_partial : forall ds states, good_leaf ds states ->
    exists N, forall fuel, (N <= fuel)%nat -> exists out,
      kmpe V veqb fuel [ds] 0 = Ok out /\ enumerates states (mass_at ds) out /\
      forall k, kmpe V veqb fuel [ds] (S k) = Ok (firstn (S k) out).
  Proof.
    intros ds states H. destruct (kmpe_outs [ds] [states]) as (N & G); [constructor; [exact H|constructor]|].
    exists N. intros fuel L. destruct (G fuel L) as (div & outs & E1 & E2 & F).
    destruct outs as [|out outs]; [inversion F|]. apply F2_cons in F. destruct F as [[A B] F].
    destruct outs as [|o outs]; [|inversion F].
    destruct out as [|x out]; [contradiction|].
    assert (K : forall k, kmpe V veqb fuel [ds] k = Ok (enumerate V (length (concat [x :: out])) [(x, out)] (match k with O => None | _ => Some k end))).
    { intro k. unfold kmpe. rewrite E1. cbn [bind]. rewrite E2. reflexivity. }
    assert (E : enumerate V (length (concat [x :: out])) [(x, out)] None = x :: out).
    { apply enumerate_one. cbn. rewrite app_length. cbn. lia. }
    exists (x :: out). split; [|split].
    - rewrite K, E. reflexivity.
    - exact A.
    - intro k. rewrite K, enumerate_cut, E. reflexivity.
  Qed.

  (** Finding: with two symbolic or integer variables the search never ends, for
      whatever distributions and however few solutions are wanted. *)
  Theorem C44_two_symbolic_refuted : forall given ds s i j di dj, init V veqb given ds = Ok s ->
    i <> j -> nth_error ds i = Some di -> nth_error ds j = Some dj -> numeric V di = false -> numeric V dj = false ->
    forall fuel k, solve V veqb fuel s k = Err OutOfFuel.
  Proof.
    intros given ds s i j di dj H Nij Ei Ej Ki Kj.
    unfold init in H. destruct (divisor_of V given ds) as [div|e]; cbn [bind] in H; [|discriminate].
    destruct (mapM _ _) as [bs|e] eqn:Eb in H; cbn [bind] in H; [|discriminate]. injection H as <-.
    assert (Li : (i < length ds)%nat) by (apply nth_error_Some; congruence).
    assert (Lj : (j < length ds)%nat) by (apply nth_error_Some; congruence).
    apply (stuck V veqb _ i j Nij); unfold nvars; cbn; rewrite ?map_length; try assumption.
    - rewrite (nth_map_d _ _ _ _ _ di) by exact Li. apply nth_error_nth with (d := di) in Ei. rewrite Ei. exact Ki.
    - rewrite (nth_map_d _ _ _ _ _ dj) by exact Lj. apply nth_error_nth with (d := dj) in Ej. rewrite Ej. exact Kj.
    - intros x L. apply mapM_len in Eb. unfold con. cbn.
      assert (I : In x (order_of V (map (constraints_of V veqb div) ds))).
      { eapply Permutation_in; [symmetry; apply order_by_perm|]. apply in_seq. rewrite map_length. lia. }
      clear -Eb I. induction Eb as [|y b l bs Hy Eb IH]; [destruct I|]. destruct I as [<-|I]; [|apply IH; exact I].
      intro Z. rewrite Z in Hy. discriminate.
  Qed.
End Statement.
Print Assumptions C44_solver_partial.
Print Assumptions C44_kmpe_complete_partial.
Print Assumptions C44_kmpe_single_partial.
Print Assumptions C44_two_symbolic_refuted.

(** ** Instances and further findings.  States are lists of natural numbers: sets of
    values of a symbolic variable, or names for number sets. *)
Definition leqb (a b : list nat) : bool := if list_eq_dec Nat.eq_dec a b then true else false.
Lemma leqb_ok : forall a b, leqb a b = true <-> a = b.
Proof. intros a b. unfold leqb. destruct (list_eq_dec Nat.eq_dec a b); split; congruence. Qed.
Definition symbolic (params : list Q) : dist (list nat) :=
  Dist _ false (DiscreteModel.k_mpe params None) (fun v => match mn_p params v with Ok q => q | Err _ => 0 end).
Definition densities (l : list (list nat * Q)) : dist (list nat) :=
  Dist _ true l (fun v => match find (fun vq => leqb v (fst vq)) l with Some vq => snd vq | None => 0 end).

Definition num3 : dist (list nat) := densities [([0%nat], 2); ([1%nat], 1); ([2%nat], 1 # 2)].
Definition sym3 : dist (list nat) := symbolic [1 # 2; 1 # 6; 1 # 3].

(** A numeric variable with three density levels and a symbolic one with three
    different probabilities meet the hypotheses; there are nine explanations. *)
Example C44_instance :
  good_leaf _ [num3; sym3] [[[0%nat]; [1%nat]; [2%nat]]; [[0%nat]; [1%nat]; [2%nat]]] /\
  match kmpe _ leqb 50 [[num3; sym3]] 4 with
  | Ok out => map (fun al => (fst al, Qred (snd al))) out =
      [([(0%nat, [0%nat]); (1%nat, [0%nat])], 1); ([(0%nat, [0%nat]); (1%nat, [2%nat])], 2 # 3);
       ([(0%nat, [1%nat]); (1%nat, [0%nat])], 1 # 2); ([(0%nat, [1%nat]); (1%nat, [2%nat])], 1 # 3)]
  | Err _ => False
  end.
Proof.
  split; [|vm_compute; reflexivity].
  assert (E : DiscreteModel.k_mpe [1 # 2; 1 # 6; 1 # 3] None = [([0%nat], 1 # 2); ([2%nat], 1 # 3); ([1%nat], 1 # 6)]) by (vm_compute; reflexivity).
  split; [discriminate|]. split; [|split].
  - constructor; [|constructor; [|constructor]]; split.
    + discriminate.
    + intros v q [X|[X|[X|[]]]]; injection X as <- <-; split; vm_compute; reflexivity.
    + unfold sym3, symbolic, MpeModel.k_mpe. rewrite E. discriminate.
    + unfold sym3, symbolic, MpeModel.k_mpe, mass. rewrite E. intros v q [X|[X|[X|[]]]]; injection X as <- <-; split; vm_compute; reflexivity.
  - assert (S3 : forall t : list (list nat * Q), map fst t = [[0%nat]; [1%nat]; [2%nat]] \/ map fst t = [[0%nat]; [2%nat]; [1%nat]] ->
      states_in t [[0%nat]; [1%nat]; [2%nat]]).
    { intros t Ht. split; [repeat constructor; cbn; intuition discriminate|]. intro v.
      assert (X : (exists q, In (v, q) t) <-> In v (map fst t)).
      { split; [intros (q & I); apply (in_map fst) in I; exact I|]. intro I. apply in_map_iff in I. destruct I as ([u q] & <- & I). exists q. exact I. }
      rewrite X. destruct Ht as [->| ->]; cbn; tauto. }
    constructor; [apply S3; left; reflexivity|]. constructor; [|constructor]. apply S3. right. unfold sym3, symbolic, MpeModel.k_mpe. rewrite E. reflexivity.
  - intros i d Ei Ki j d' Ej Nij. destruct i as [|[|i]]; cbn in Ei; [injection Ei as <-; discriminate| |destruct i; discriminate].
    destruct j as [|[|j]]; cbn in Ej; [|contradiction|destruct j; discriminate]. right. cbn. split; [reflexivity|lia].
Qed.

(** Finding: a state of a symbolic variable may hold several equally likely values.
    The search orders by the probability of the whole set, but the likelihood
    reported is that of one value: the second explanation is more likely than the first. *)
Theorem C44_symbolic_order_refuted :
  match kmpe _ leqb 50 [[symbolic [2 # 5; 3 # 10; 3 # 10]]] 0 with
  | Ok out => map (fun al => (fst al, Qred (snd al))) out = [([(0%nat, [1%nat; 2%nat])], 3 # 10); ([(0%nat, [0%nat])], 2 # 5)]
  | Err _ => False
  end.
Proof. vm_compute. reflexivity. Qed.
Print Assumptions C44_symbolic_order_refuted.

Definition same (a b : list (nat * list nat)) : bool :=
  (length a =? length b)%nat && forallb (fun p => (fst (fst p) =? fst (snd p))%nat && leqb (snd (fst p)) (snd (snd p))) (combine a b).
(** Finding: a symbolic variable examined before a numeric one is forgotten and
    assigned again: twelve explanations of six, the combination (0, 0) twice. *)
Theorem C44_repeated_refuted :
  match kmpe _ leqb 50 [[symbolic [2 # 3; 1 # 3]; densities [([0%nat], 3); ([1%nat], 2); ([2%nat], 1)]]] 0 with
  | Ok out => length out = 12%nat /\ length (filter (fun al => same (fst al) [(1%nat, [0%nat]); (0%nat, [0%nat])]) out) = 2%nat
  | Err _ => False
  end /\ length (choices [[[0%nat]; [1%nat]]; [[0%nat]; [1%nat]; [2%nat]]]) = 6%nat.
Proof. vm_compute. repeat split. Qed.
Print Assumptions C44_repeated_refuted.

(** Finding: over several leaves the least likely of the candidates is yielded first. *)
Theorem C44_leaves_order_refuted :
  match kmpe _ leqb 50 [[densities [([0%nat], 2)]]; [densities [([1%nat], 1)]]] 0 with
  | Ok out => map snd out = [1; 2]
  | Err _ => False
  end.
Proof. vm_compute. reflexivity. Qed.
Print Assumptions C44_leaves_order_refuted.
