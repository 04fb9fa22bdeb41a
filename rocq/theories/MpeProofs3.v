(** Completeness against all choices; the first k; non-termination; trees. *)
Require Import QArith Lqa List Bool Arith Lia Permutation Sorted Morphisms.
Require Import Verif.Base Verif.NumBase Verif.MpeModel Verif.MpeSpec Verif.MpeProofs Verif.MpeProofs2.
Import ListNotations.
Open Scope Q_scope.

(** ** Choices *)
Lemma NoDup_flat_map : forall A B (f : A -> list B) l, NoDup l -> (forall x, In x l -> NoDup (f x)) ->
  (forall x y b, In x l -> In y l -> In b (f x) -> In b (f y) -> x = y) -> NoDup (flat_map f l).
Proof.
  intros A B f l. induction l as [|x l IH]; intros D F X; cbn; [constructor|].
  apply NoDup_cons_iff in D. destruct D as [N D].
  assert (G : forall l1 l2 : list B, NoDup l1 -> NoDup l2 -> (forall b, In b l1 -> ~ In b l2) -> NoDup (l1 ++ l2)).
  { induction l1 as [|b l1 IH1]; intros l2 H1 H2 H; cbn; [exact H2|]. apply NoDup_cons_iff in H1. destruct H1 as [N1 H1].
    constructor; [|apply IH1; try assumption; intros; apply H; right; assumption].
    intro I. apply in_app_or in I. destruct I as [I|I]; [contradiction|]. apply (H b); [left; reflexivity|exact I]. }
  apply G.
  - apply F. left. reflexivity.
  - apply IH; [exact D| |]; intros; [apply F; right; assumption|]. apply (X x0 y b); try assumption; right; assumption.
  - intros b I J. apply in_flat_map in J. destruct J as (y & Iy & J).
    assert (x = y) by (apply (X x y b); try assumption; [left; reflexivity|right; exact Iy]). subst y. contradiction.
Qed.
Lemma map_inj_nodup : forall A B (f : A -> B) l, (forall x y, In x l -> In y l -> f x = f y -> x = y) -> NoDup l -> NoDup (map f l).
Proof.
  intros A B f l. induction l as [|x l IH]; intros H D; cbn; [constructor|]. apply NoDup_cons_iff in D. destruct D as [N D].
  constructor.
  - intro I. apply in_map_iff in I. destruct I as (y & E & I). assert (y = x) by (apply H; [right; exact I|left; reflexivity|exact E]). subst y. contradiction.
  - apply IH; [|exact D]. intros; apply H; try (right; assumption). assumption.
Qed.
Lemma choices_in : forall V (ls : list (list V)) p, In p (choices ls) <-> Forall2 (fun l v => In v l) ls p.
Proof.
  intros V ls. induction ls as [|l ls IH]; intro p; cbn.
  - split; [intros [<-|[]]; constructor|]. intro H. inversion H; subst. left. reflexivity.
  - rewrite in_flat_map. split.
    + intros (v & I & J). apply in_map_iff in J. destruct J as (q & <- & J). constructor; [exact I|]. apply IH. exact J.
    + intro H. destruct p as [|v p]; [inversion H|]. apply F2_cons in H. destruct H as [I H]. exists v. split; [exact I|].
      apply in_map_iff. exists p. split; [reflexivity|]. apply IH. exact H.
Qed.
Lemma choices_nodup : forall V (ls : list (list V)), Forall (@NoDup V) ls -> NoDup (choices ls).
Proof.
  intros V ls H. induction H as [|l ls D H IH]; cbn; [constructor; [intros []|constructor]|].
  apply NoDup_flat_map; [exact D| |].
  - intros v _. apply map_inj_nodup; [|exact IH]. intros a b _ _ E. congruence.
  - intros v u p _ _ I J. apply in_map_iff in I, J. destruct I as (a & <- & _), J as (b & E & _). congruence.
Qed.

Lemma seq_split_at : forall n x, (x < n)%nat -> nth_error (seq 0 n) x = Some x.
Proof.
  intros n x L. rewrite (nth_error_nth' _ 0%nat) by (rewrite seq_length; exact L). rewrite seq_nth by exact L. reflexivity.
Qed.
Lemma state_of_in : forall V (a : list (nat * V)) x v, NoDup (map fst a) -> (state_of a x = Some v <-> In (x, v) a).
Proof.
  intros V a x v. induction a as [|[y u] a IH]; intro D; cbn.
  - split; [discriminate|intros []].
  - cbn in D. apply NoDup_cons_iff in D. destruct D as [N D]. destruct (Nat.eqb_spec x y) as [->|Ne].
    + split; [intro E; injection E as ->; left; reflexivity|].
      intros [E|I]; [injection E as ->; reflexivity|]. exfalso. apply N. apply (in_map fst) in I. exact I.
    + rewrite (IH D). split; [intro I; right; exact I|]. intros [E|I]; [injection E as -> ->; contradiction|exact I].
Qed.

Section Cover.
  Variable V : Type.
  Variable s : solver V.
  Variable dflt : V.
  Let cn := con V s.
  Let n := nvars V s.
  Let ord := order V s.
  Hypothesis Hnd : forall x, NoDup (map fst (cn x)).

  Lemma ord_perm : Permutation ord (seq 0 n).
  Proof. apply order_by_perm. Qed.
  Lemma comps_in : forall xs a, In a (comps V s xs) <-> map fst a = xs /\ Forall (fun xv => In (snd xv) (map fst (cn (fst xv)))) a.
  Proof.
    induction xs as [|x xs IH]; intro a; cbn [comps].
    - split.
      + intros [<-|[]]. split; constructor.
      + intros [M _]. destruct a; [left; reflexivity|discriminate].
    - rewrite in_flat_map. split.
      + intros ([v w] & I & J). apply in_map_iff in J. destruct J as (b & <- & J). apply IH in J. destruct J as [M F].
        cbn. split; [congruence|]. constructor; [|exact F]. cbn. apply (in_map fst) in I. exact I.
      + intros [M F]. destruct a as [|[y v] a]; [discriminate|]. cbn in M. injection M as -> M.
        apply Forall_cons_iff in F. destruct F as [I F]. cbn in I. apply in_map_iff in I. destruct I as ([u w] & E & I). cbn in E. subst u.
        exists (v, w). split; [exact I|]. apply in_map_iff. exists a. split; [reflexivity|]. apply IH. split; assumption.
  Qed.
  Lemma comps_nodup : forall xs, NoDup (comps V s xs).
  Proof.
    induction xs as [|x xs IH]; cbn [comps]; [constructor; [intros []|constructor]|].
    apply NoDup_flat_map.
    - apply (NoDup_map_inv fst). apply Hnd.
    - intros vw _. apply map_inj_nodup; [|exact IH]. intros a b _ _ E. congruence.
    - intros [v w] [u r] b I J Ib Jb. apply in_map_iff in Ib, Jb. destruct Ib as (a & <- & _), Jb as (c & E & _).
      cbn in E. assert (u = v) by congruence. subst u.
      (* two entries with one key are equal *)
      assert (G : forall l : list (V * Q), NoDup (map fst l) -> In (v, w) l -> In (v, r) l -> w = r).
      { intros l D I1 I2. induction l as [|[z q] l IHl]; [destruct I1|]. cbn in D. apply NoDup_cons_iff in D. destruct D as [N D].
        destruct I1 as [E1|I1], I2 as [E2|I2].
        - congruence.
        - exfalso. apply N. injection E1 as -> ->. apply (in_map fst) in I2. exact I2.
        - exfalso. apply N. injection E2 as -> ->. apply (in_map fst) in I1. exact I1.
        - apply IHl; assumption. }
      f_equal. apply (G (con V s x)); try assumption. apply Hnd.
  Qed.

  Definition pick (a : asg V) : list V := map (fun x => match state_of a x with Some v => v | None => dflt end) (seq 0 n).
  Lemma comps_keys : forall a, In a (comps V s ord) -> Permutation (map fst a) (seq 0 n) /\ NoDup (map fst a).
  Proof.
    intros a I. apply comps_in in I. destruct I as [-> _]. split; [exact ord_perm|].
    eapply Permutation_NoDup; [symmetry; exact ord_perm|apply seq_NoDup].
  Qed.
  Lemma has_state : forall a x, In a (comps V s ord) -> (x < n)%nat -> exists v, state_of a x = Some v /\ In v (map fst (cn x)).
  Proof.
    intros a x I L. destruct (comps_keys a I) as [P D].
    assert (J : In x (map fst a)) by (eapply Permutation_in; [symmetry; exact P|]; apply in_seq; lia).
    apply in_map_iff in J. destruct J as ([y v] & E & J). cbn in E. subst y. exists v. split; [apply state_of_in; assumption|].
    apply comps_in in I. destruct I as [_ F]. eapply Forall_forall in F; [|exact J]. exact F.
  Qed.
  Lemma pick_says : forall a, In a (comps V s ord) -> says a (pick a).
  Proof.
    intros a I. unfold says, pick. rewrite map_length, seq_length. split.
    - destruct (comps_keys a I) as [P _]. apply Permutation_length in P. rewrite map_length, seq_length in P. exact P.
    - intros x L. rewrite nth_error_map, seq_split_at by exact L. cbn. destruct (has_state a x I L) as (v & -> & _). reflexivity.
  Qed.
  Lemma pick_nth : forall a x, (x < n)%nat -> nth_error (pick a) x = Some (match state_of a x with Some v => v | None => dflt end).
  Proof. intros a x L. unfold pick. rewrite nth_error_map, seq_split_at by exact L. reflexivity. Qed.
  Lemma pick_inj : forall a b, In a (comps V s ord) -> In b (comps V s ord) -> pick a = pick b -> a = b.
  Proof.
    intros a b Ia Ib E. destruct (comps_keys a Ia) as [Pa Da]. destruct (comps_keys b Ib) as [Pb Db].
    assert (St : forall x, (x < n)%nat -> state_of a x = state_of b x).
    { intros x L. destruct (has_state a x Ia L) as (v & Ev & _). destruct (has_state b x Ib L) as (u & Eu & _).
      pose proof (pick_nth a x L) as A. pose proof (pick_nth b x L) as B. rewrite E in A. rewrite Ev in A. rewrite Eu in B. congruence. }
    assert (M : map fst a = map fst b) by (apply comps_in in Ia, Ib; destruct Ia as [-> _], Ib as [-> _]; reflexivity).
    assert (Lt : forall x, In x (map fst a) -> (x < n)%nat) by (intros x I; apply (Permutation_in _ Pa) in I; apply in_seq in I; lia).
    clear -St M Lt Da Db. revert b St M Db. induction a as [|[x v] a IH]; intros b St M Db; destruct b as [|[y u] b]; try discriminate; [reflexivity|].
    cbn in M. injection M as <- M. cbn in Da, Db. apply NoDup_cons_iff in Da, Db. destruct Da as [Na Da], Db as [Nb Db].
    pose proof (St x (Lt x (or_introl eq_refl))) as E. cbn in E. rewrite Nat.eqb_refl in E. injection E as <-. f_equal.
    apply IH; try assumption.
    - intros z I. apply Lt. right. exact I.
    - intros z L. pose proof (St z L) as E. cbn in E. destruct (Nat.eqb_spec z x) as [->|]; [|exact E].
      assert (Nx : forall c : list (nat * V), ~ In x (map fst c) -> state_of c x = None).
      { induction c as [|[k w] c IHc]; intro H; cbn; [reflexivity|]. destruct (Nat.eqb_spec x k) as [->|]; [exfalso; apply H; left; reflexivity|].
        apply IHc. intro I. apply H. right. exact I. }
      rewrite (Nx a Na), (Nx b); [reflexivity|]. exact Nb.
  Qed.

  Lemma picks_perm : forall ss, length ss = n ->
    (forall x, (x < n)%nat -> NoDup (nth x ss []) /\ forall v, In v (nth x ss []) <-> In v (map fst (cn x))) ->
    Permutation (map pick (comps V s ord)) (choices ss).
  Proof.
    intros ss Ln H. apply NoDup_Permutation.
    - apply map_inj_nodup; [exact pick_inj|apply comps_nodup].
    - apply choices_nodup. apply Forall_forall. intros l I. apply In_nth with (d := []) in I. destruct I as (x & L & <-). apply H. lia.
    - intro p. rewrite choices_in. split.
      + intro I. apply in_map_iff in I. destruct I as (a & <- & I).
        assert (G : forall m k, (k + length m = n)%nat -> (forall x, (x < length m)%nat -> nth x m [] = nth (k + x) ss []) ->
          Forall2 (fun l v => In v l) m (map (fun x => match state_of a x with Some v => v | None => dflt end) (seq k (length m)))).
        { induction m as [|l m IHm]; intros k Lk Hm; cbn; [constructor|]. constructor.
          - pose proof (Hm 0%nat ltac:(cbn; lia)) as E. cbn in E. rewrite Nat.add_0_r in E. subst l. cbn in Lk.
            assert (Lx : (k < n)%nat) by lia. destruct (has_state a k I Lx) as (v & -> & J). apply (H k Lx). exact J.
          - apply IHm; [cbn in Lk; lia|]. intros x Lx. pose proof (Hm (S x) ltac:(cbn; lia)) as E. cbn in E. rewrite E. f_equal. lia. }
        unfold pick. rewrite <- Ln. apply (G ss 0%nat); [exact Ln|]. intros; reflexivity.
      + intro F.
        assert (Lp : length p = n) by (rewrite <- Ln; symmetry; eapply F2_length; exact F).
        assert (At : forall x, (x < n)%nat -> In (nth x p dflt) (map fst (cn x))).
        { intros x L. apply (H x L). clear -F L Ln.
          assert (G : forall ls q y, Forall2 (fun (l : list V) v => In v l) ls q -> (y < length ls)%nat -> In (nth y q dflt) (nth y ls [])).
          { intros ls q y Hq. revert y. induction Hq as [|l v ls q Hl Hq IH]; intros y Ly; cbn in Ly; [lia|]. destruct y as [|y]; cbn; [exact Hl|]. apply IH. lia. }
          apply G; [exact F|]. rewrite Ln. exact L. }
        apply in_map_iff. exists (map (fun x => (x, nth x p dflt)) ord).
        assert (Lt : forall x, In x ord -> (x < n)%nat) by (intros x I; apply (Permutation_in _ ord_perm) in I; apply in_seq in I; lia).
        assert (Ia : In (map (fun x => (x, nth x p dflt)) ord) (comps V s ord)).
        { apply comps_in. split.
          - rewrite map_map. cbn. apply map_id.
          - apply Forall_forall. intros [x v] I. apply in_map_iff in I. destruct I as (y & E & I). injection E as <- <-. cbn. apply At, Lt, I. }
        split; [|exact Ia].
        apply nth_ext with dflt dflt; [unfold pick; rewrite map_length, seq_length; lia|].
        intros x L. unfold pick in L. rewrite map_length, seq_length in L.
        apply nth_error_nth. rewrite pick_nth by exact L. f_equal.
        assert (E : state_of (map (fun x => (x, nth x p dflt)) ord) x = Some (nth x p dflt)); [|rewrite E; reflexivity].
        apply state_of_in; [apply (comps_keys _ Ia)|]. apply in_map_iff. exists x. split; [reflexivity|].
        eapply Permutation_in; [symmetry; exact ord_perm|]. apply in_seq. lia.
  Qed.
End Cover.

(** ** The first k *)
Section Cut.
  Variable V : Type.
  Variable veqb : V -> V -> bool.
  Lemma emit_cut : forall s sols ub out rest, emit V veqb s sols ub None = Ok (out, rest, None, false) -> forall k,
    (S k <= length out -> exists r, emit V veqb s sols ub (Some (S k)) = Ok (firstn (S k) out, r, Some O, true))%nat /\
    (length out < S k -> emit V veqb s sols ub (Some (S k)) = Ok (out, rest, Some (S k - length out)%nat, false))%nat.
  Proof.
    intros s sols ub. induction sols as [|x sols IH]; intros out rest H k; cbn [emit] in H |- *.
    - injection H as <- <-. split; cbn; intro L; [lia|reflexivity].
    - destruct (Qeq_bool (s_cost V x) ub).
      + destruct (likelihood V veqb s (s_asg V x)) as [l|e]; cbn [bind] in *; [|discriminate].
        destruct (emit V veqb s sols ub None) as [r|e] eqn:E; cbn [bind] in *; [|discriminate].
        destruct r as [[[o rs] k'] st]. injection H as <- -> -> ->. specialize (IH o rest eq_refl).
        destruct k as [|k].
        * split; cbn; intro L; [|lia]. exists sols. reflexivity.
        * destruct (IH k) as [I1 I2]. split; cbn [length]; intro L.
          { destruct I1 as (r & ->); [lia|]. cbn. exists r. reflexivity. }
          rewrite I2 by lia. cbn. reflexivity.
      + injection H as <- <-. split; cbn; intro L; [lia|reflexivity].
  Qed.
  Lemma emit_none : forall s sols ub out rest k st, emit V veqb s sols ub None = Ok (out, rest, k, st) -> k = None /\ st = false.
  Proof.
    intros s sols ub. induction sols as [|x sols IH]; intros out rest k st H; cbn [emit] in H.
    - injection H as <- <- <- <-. split; reflexivity.
    - destruct (Qeq_bool (s_cost V x) ub).
      + destruct (likelihood V veqb s (s_asg V x)) as [l|e]; cbn [bind] in *; [|discriminate].
        destruct (emit V veqb s sols ub None) as [r|e] eqn:E; cbn [bind] in *; [|discriminate].
        destruct r as [[[o rs] k'] st']. injection H as <- <- <- <-. apply (IH o rs). reflexivity.
      + injection H as <- <- <- <-. split; reflexivity.
  Qed.
  Lemma rounds_cut : forall fuel s fr sols ub out, rounds V veqb fuel s fr sols ub None = Ok out ->
    forall k, rounds V veqb fuel s fr sols ub (Some (S k)) = Ok (firstn (S k) out).
  Proof.
    induction fuel as [|fuel IH]; intros s fr sols ub out H k; [discriminate|].
    assert (C : (fr = [] /\ sols = []) \/ forall k, rounds V veqb (S fuel) s fr sols ub k =
        (do r <- search V (S fuel) s fr [] sols ub;
            let '(pruned, sols1, ub1) := r in
            do e <- emit V veqb s sols1 ub1 k;
            let '(out, sols2, k', stop) := e in
            if stop : bool then Ok out
            else
              do more <- rounds V veqb fuel s pruned sols2 (match sols2 with [] => 0 | x :: _ => s_cost V x end) k';
              Ok (out ++ more))).
    { destruct fr as [|m fr]; destruct sols as [|x sols]; [left; split; reflexivity| | |]; right; reflexivity. }
    destruct C as [[-> ->]|C].
    { cbn in H |- *. injection H as <-. reflexivity. }
    rewrite C in H |- *. destruct (search V (S fuel) s fr [] sols ub) as [[[pr s1] u1]|e]; cbn [bind] in *; [|discriminate].
    destruct (emit V veqb s s1 u1 None) as [[[[o s2] k'] st]|e] eqn:E; cbn [bind] in *; [|discriminate].
    destruct (emit_none _ _ _ _ _ _ _ E) as [-> ->].
    destruct (emit_cut _ _ _ _ _ E k) as [I1 I2].
    destruct (rounds V veqb fuel s pr s2 _ None) as [more|e] eqn:Er; cbn [bind] in *; [|discriminate]. injection H as <-.
    destruct (le_lt_dec (S k) (length o)) as [L|L].
    - destruct (I1 L) as (r & ->). cbn [bind]. f_equal. rewrite firstn_app. replace (S k - length o)%nat with 0%nat by lia.
      cbn [firstn]. rewrite app_nil_r. reflexivity.
    - rewrite (I2 L). cbn [bind]. assert (X : (exists j, S k - length o = S j)%nat) by (exists (k - length o)%nat; lia).
      destruct X as (j & X). rewrite X. rewrite (IH _ _ _ _ _ Er j). cbn [bind]. f_equal.
      rewrite firstn_app, X. rewrite (firstn_all2 o) by lia. reflexivity.
  Qed.
  Theorem solve_cut : forall fuel s out k, solve V veqb fuel s 0 = Ok out -> solve V veqb fuel s (S k) = Ok (firstn (S k) out).
  Proof. intros fuel s out k H. unfold solve in *. apply rounds_cut. exact H. Qed.
End Cut.

(** ** Two variables whose states are lost in copying: no solution is ever found *)
Section Stuck.
  Variable V : Type.
  Variable veqb : V -> V -> bool.
  Variable s : solver V.
  Variables x1 x2 : nat.
  Hypothesis Hx : x1 <> x2.
  Hypothesis Hl1 : (x1 < nvars V s)%nat.
  Hypothesis Hl2 : (x2 < nvars V s)%nat.
  Hypothesis Hk1 : nth x1 (kept V s) false = false.
  Hypothesis Hk2 : nth x2 (kept V s) false = false.
  Hypothesis Hne : forall x, (x < nvars V s)%nat -> con V s x <> [].

  Lemma aput_keys : forall a x (v : V) y, In y (map fst (aput V a x v)) -> y = x \/ In y (map fst a).
  Proof.
    induction a as [|[z u] a IH]; intros x v y I; cbn in *.
    - destruct I as [<-|[]]. left. reflexivity.
    - destruct (Nat.eqb_spec x z) as [->|]; cbn in I.
      + right. exact I.
      + destruct I as [<-|I]; [right; left; reflexivity|]. apply IH in I. destruct I as [->|I]; [left; reflexivity|right; right; exact I].
  Qed.
  Lemma no_goal : forall a x v, is_goal V s (assign V s a x v) = false.
  Proof.
    intros a x v. apply not_true_is_false. intro G. unfold is_goal in G. rewrite forallb_forall in G.
    assert (K : forall y, (y < nvars V s)%nat -> nth y (kept V s) false = false -> y = x).
    { intros y L Ky. assert (I : In y (seq 0 (nvars V s))) by (apply in_seq; lia). apply G in I. apply mem_spec in I.
      apply aput_keys in I. destruct I as [->|I]; [reflexivity|]. unfold deep_copy in I. apply in_map_iff in I.
      destruct I as ([z u] & E & I). apply filter_In in I. destruct I as [_ I]. cbn in *. subst z. congruence. }
    apply Hx. rewrite (K x1 Hl1 Hk1), (K x2 Hl2 Hk2). reflexivity.
  Qed.
  Lemma mk_live : forall a act, is_goal V s a = false -> n_live V s (mk_node V s a act) = true.
  Proof.
    intros a act G. unfold mk_node. destruct (filter (fun x => negb (mem V a x)) (order V s)) as [|x r] eqn:E.
    - exfalso. assert (X : is_goal V s a = true); [|congruence]. unfold is_goal. apply forallb_forall. intros y I.
      assert (J : In y (order V s)) by (eapply Permutation_in; [symmetry; apply order_by_perm|exact I]).
      destruct (mem V a y) eqn:M; [reflexivity|]. exfalso.
      assert (In y []) as []. rewrite <- E. apply filter_In. split; [exact J|]. rewrite M. reflexivity.
    - assert (J : In x (order V s)) by (assert (In x (x :: r)) as J by (left; reflexivity); rewrite <- E in J; apply filter_In in J; apply J).
      assert (Lx : (x < nvars V s)%nat).
      { assert (In x (seq 0 (nvars V s))) as Jx by (eapply Permutation_in; [apply order_by_perm|exact J]). apply in_seq in Jx. lia. }
      pose proof (Hne x Lx) as N. unfold n_live, n_state. cbn.
      destruct (con V s x) as [|[v w] c]; [contradiction|reflexivity].
  Qed.
  Lemma stuck_search : forall fuel fr pr sols, fr <> [] -> Forall (fun n => n_live V s n = true) fr ->
    search V fuel s fr pr sols 0 = Err OutOfFuel.
  Proof.
    induction fuel as [|fuel IH]; intros fr pr sols N F; [reflexivity|]. destruct fr as [|n fr]; [contradiction|]. cbn [search].
    apply Forall_cons_iff in F. destruct F as [L F]. unfold n_live in L. destruct (n_state V s n) as [a|] eqn:E; [|discriminate].
    assert (G : is_goal V s a = false).
    { unfold n_state in E. destruct (n_var V n); [|discriminate]. destruct (n_vals V n) as [|[v w] c]; [discriminate|]. injection E as <-. apply no_goal. }
    rewrite G. replace (Qltb (n_cost V s n) 0 && Qltb 0 (n_cost V s n)) with false.
    - apply IH; [discriminate|]. constructor; [apply mk_live; exact G|].
      destruct (n_live V s (n_next V n)) eqn:L'; [constructor; assumption|exact F].
    - symmetry. unfold Qltb. destruct (Qltb_spec (n_cost V s n) 0), (Qltb_spec 0 (n_cost V s n)); try reflexivity. lra.
  Qed.
  Theorem stuck : forall fuel k, solve V veqb fuel s k = Err OutOfFuel.
  Proof.
    intros [|fuel] k; [reflexivity|]. unfold solve. cbn [rounds]. rewrite stuck_search; [reflexivity|discriminate|].
    constructor; [|constructor]. apply mk_live. unfold is_goal. apply not_true_is_false. intro G. rewrite forallb_forall in G.
    specialize (G x1 ltac:(apply in_seq; lia)). discriminate.
  Qed.
End Stuck.

(** ** Enumerating the leaves of a tree *)
Section Leaves.
  Variable V : Type.
  Definition flat (h : list (stream V)) : list (asg V * Q) := flat_map (fun st => fst st :: snd st) h.
  Lemma enumerate_all : forall fuel h, (length (flat h) <= fuel)%nat -> Permutation (enumerate V fuel h None) (flat h).
  Proof.
    induction fuel as [|fuel IH]; intros h L.
    - destruct h as [|[x r] h]; [constructor|cbn in L; lia].
    - destruct h as [|[x r] h]; [constructor|]. cbn [enumerate flat flat_map fst snd app]. apply perm_skip.
      destruct r as [|y r].
      + apply IH. unfold flat in *. cbn in L. lia.
      + assert (P : Permutation (flat (hpush (stream_before V) (y, r) h)) ((y :: r) ++ flat h)) by exact (Permutation_flat_map_local _ _ (fun st => fst st :: snd st) _ _ (hpush_perm _ (stream_before V) (y, r) h)).
        eapply perm_trans; [apply IH|exact P]. apply Permutation_length in P. rewrite P. unfold flat in *. cbn in L |- *. lia.
  Qed.
  Lemma heapify_perm : forall (l : list (stream V)), Permutation (heapify (stream_before V) l) l.
  Proof.
    intro l. unfold heapify. assert (G : forall m, Permutation (fold_left (fun h x => hpush (stream_before V) x h) l m) (l ++ m)).
    { induction l as [|x l IH]; intro m; cbn; [apply Permutation_refl|].
      eapply perm_trans; [apply IH|]. eapply perm_trans; [apply Permutation_app_head; apply hpush_perm|]. symmetry. apply Permutation_middle. }
    pose proof (G []) as P. rewrite app_nil_r in P. exact P.
  Qed.
  Lemma enumerate_one : forall l x fuel, (length l < fuel)%nat -> enumerate V fuel [(x, l)] None = x :: l.
  Proof.
    induction l as [|y l IH]; intros x fuel L; (destruct fuel as [|fuel]; [cbn in L; lia|]); cbn [enumerate].
    - destruct fuel; reflexivity.
    - cbn [hpush]. rewrite IH by (cbn in L; lia). reflexivity.
  Qed.
  Lemma enumerate_cut : forall fuel h k, enumerate V fuel h (Some k) = firstn k (enumerate V fuel h None).
  Proof.
    induction fuel as [|fuel IH]; intros h k.
    - destruct k; reflexivity.
    - destruct k as [|k]; [reflexivity|]. destruct h as [|[x r] h]; [reflexivity|]. cbn [enumerate firstn]. rewrite IH. reflexivity.
  Qed.
End Leaves.
