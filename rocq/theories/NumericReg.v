(** The CDF regressor: the selected indices, termination, and what a split minimises. *)
Require Import ZArith QArith Qabs Lqa Bool List Arith Lia Sorted Permutation.
Require Import Verif.Base Verif.NumBase Verif.UtilModel Verif.NumericModel.
Import ListNotations.
Open Scope nat_scope.

Section Reg.
  Variables X Y : nat -> Q.
  Variable n : nat.
  Variable eps : Q.
  Variable ms : Z.

  Definition desc (l : list nat) : Prop := StronglySorted gt l.

  Lemma push_in : forall x q y, In y (pq_push x q) <-> y = x \/ In y q.
  Proof.
    intros x q y. induction q as [|z q IH]; cbn; [intuition|]. destruct (Nat.leb z x); cbn; [intuition|]. rewrite IH. intuition.
  Qed.

  Lemma push_desc : forall x q, desc q -> ~ In x q -> desc (pq_push x q).
  Proof.
    intros x q D. induction D as [|y q D IH F]; intro N; cbn; [constructor; constructor|].
    destruct (Nat.leb_spec y x) as [L|L].
    - constructor; [constructor; assumption|]. constructor.
      + assert (y <> x) by (intros ->; apply N; left; reflexivity). lia.
      + rewrite Forall_forall in *. intros z I. specialize (F z I). assert (y <> x) by (intros ->; apply N; left; reflexivity). lia.
    - constructor.
      + apply IH. intro I. apply N. right. exact I.
      + apply Forall_forall. intros z I. apply push_in in I. destruct I as [->|I]; [lia|]. rewrite Forall_forall in F. apply F. exact I.
  Qed.

  Lemma inside_in : forall a b k, In k (inside a b) <-> a < k < b.
  Proof. intros a b k. unfold inside. rewrite in_seq. lia. Qed.

  Lemma try_fold_in : forall a b l s, (forall r, best s = Some r -> In (fst (fst r)) l \/ a < fst (fst r) < b) ->
    (forall k, In k l -> a < k < b) ->
    forall r, best (fold_left (try_split X Y a b) l s) = Some r -> a < fst (fst r) < b.
  Proof.
    intros a b. induction l as [|k l IH]; intros s Hs Hl r E.
    - destruct (Hs r E) as [[]|H]; exact H.
    - cbn [fold_left] in E. apply (IH _) in E; [exact E| |intros; apply Hl; right; assumption].
      intros r' E'. cbn [try_split best] in E'. destruct (_ || _) in E'.
      + injection E' as <-. right. cbn [fst]. apply Hl. left. reflexivity.
      + destruct (Hs r' E') as [[->|I]|I]; [right; apply Hl; left; reflexivity|left; exact I|right; exact I].
  Qed.

  (** What a call of [_forward] does. *)
  Lemma forward_cases : forall j pts, let r := forward X Y eps ms j pts in
    r = (pts, []) \/
    exists s, j_start j < s < j_end j /\ fst r = pq_push s pts
      /\ exists e1 e2 d1 d2, In (snd r) [ []; [Job (j_start j) s e1 d1]; [Job s (j_end j) e2 d2];
                                         [Job (j_start j) s e1 d1; Job s (j_end j) e2 d2] ].
  Proof.
    intros j pts. unfold forward. cbv zeta. destruct (_ || _); [left; reflexivity|].
    destruct (best _) as [[[s el] er]|] eqn:E; [|left; reflexivity]. right. exists s. split; [|split; [reflexivity|]].
    - assert (K : j_start j < fst (fst (s, el, er)) < j_end j); [|exact K].
      refine (try_fold_in _ _ _ _ _ _ _ E); [|intros k I; apply inside_in; exact I]. cbn [best]. discriminate.
    - exists el, er, (S (j_depth j)), (S (j_depth j)). cbn [snd]. destruct (Qle_bool eps el), (Qle_bool eps er); cbn; tauto.
  Qed.

  (** Queued calls: between two points, nothing selected inside, non-overlapping. *)
  Definition job_ok (pts : list nat) (j : job) : Prop :=
    j_start j < j_end j /\ In (j_start j) pts /\ In (j_end j) pts /\ forall k, In k pts -> ~ (j_start j < k < j_end j).
  Definition apart (i j : job) : Prop := j_end i <= j_start j \/ j_end j <= j_start i.
  Definition cost (q : list job) : nat := list_sum (map (fun j => 2 * (j_end j - j_start j) - 1) q).

  Lemma cost_app : forall a b, cost (a ++ b) = cost a + cost b.
  Proof. intros. unfold cost. rewrite map_app, list_sum_app. reflexivity. Qed.

  Lemma FOP_snoc : forall {A} (R : A -> A -> Prop) l m, ForallOrdPairs R l -> ForallOrdPairs R m ->
    (forall x y, In x l -> In y m -> R x y) -> ForallOrdPairs R (l ++ m).
  Proof.
    intros A R l m Hl Hm H. induction Hl as [|x l F Hl IH]; [exact Hm|]. cbn. constructor.
    - apply Forall_app. split; [exact F|]. apply Forall_forall. intros y I. apply H; [left; reflexivity|exact I].
    - apply IH. intros; apply H; [right; assumption|assumption].
  Qed.

  Lemma forward_loop_spec : forall fuel q pts, cost q <= fuel ->
    desc pts -> Forall (fun k => k < n) pts -> Forall (job_ok pts) q -> ForallOrdPairs apart q ->
    exists r, forward_loop X Y eps ms fuel q pts = Ok r /\ desc r /\ Forall (fun k => k < n) r
      /\ (forall k, In k pts -> In k r).
  Proof.
    induction fuel as [|fuel IH]; intros q pts C D B J A.
    - destruct q as [|j q]; [exists pts; cbn; auto|].
      inversion J as [|? ? (L & _) _]; subst. unfold cost in C. cbn [map list_sum] in C. change (list_sum (?a :: ?l)) with (a + list_sum l) in C. lia.
    - destruct q as [|j q]; [exists pts; cbn; auto|]. cbn [forward_loop].
      inversion J as [|? ? Jj Jq]; subst. inversion A as [|? ? Fj Aq]; subst.
      assert (Cq : 2 * (j_end j - j_start j) - 1 + cost q <= S fuel) by (unfold cost in *; cbn [map] in C; change (list_sum (?a :: ?l)) with (a + list_sum l) in C; lia).
      destruct (forward_cases j pts) as [E|(s & Hs & E1 & e1 & e2 & d1 & d2 & E2)].
      + rewrite E. cbn [fst snd]. rewrite app_nil_r. apply IH; try assumption. destruct Jj as (L & _). lia.
      + rewrite E1. destruct Jj as (L & Is & Ie & Nj).
        assert (Ns : ~ In s pts) by (intro I; exact (Nj s I Hs)).
        destruct (IH (q ++ snd (forward X Y eps ms j pts)) (pq_push s pts)) as (r & Er & Dr & Br & Ir).
        * rewrite cost_app. assert (cost (snd (forward X Y eps ms j pts)) <= 2 * (j_end j - j_start j) - 2); [|lia].
          destruct E2 as [<-|[<-|[<-|[<-|[]]]]]; unfold cost; cbn [map list_sum fold_right j_start j_end]; lia.
        * apply push_desc; assumption.
        * apply Forall_forall. intros k I. apply push_in in I. rewrite Forall_forall in B. destruct I as [->|I]; [|apply B; exact I].
          specialize (B _ Ie). lia.
        * apply Forall_app. split.
          -- apply Forall_forall. intros i Ii. rewrite Forall_forall in Jq, Fj. destruct (Jq i Ii) as (Li & Si & Ei & Ni). specialize (Fj i Ii).
             split; [exact Li|]. split; [apply push_in; right; exact Si|]. split; [apply push_in; right; exact Ei|].
             intros k Ik. apply push_in in Ik. destruct Ik as [->|Ik]; [unfold apart in Fj; lia|apply Ni; exact Ik].
          -- assert (P1 : job_ok (pq_push s pts) (Job (j_start j) s e1 d1)).
             { repeat split; cbn [j_start j_end]; [lia|apply push_in; right; exact Is|apply push_in; left; reflexivity|].
               intros k Ik H. apply push_in in Ik. destruct Ik as [->|Ik]; [lia|]. apply (Nj k Ik). lia. }
             assert (P2 : job_ok (pq_push s pts) (Job s (j_end j) e2 d2)).
             { repeat split; cbn [j_start j_end]; [lia|apply push_in; left; reflexivity|apply push_in; right; exact Ie|].
               intros k Ik H. apply push_in in Ik. destruct Ik as [->|Ik]; [lia|]. apply (Nj k Ik). lia. }
             destruct E2 as [<-|[<-|[<-|[<-|[]]]]]; repeat first [assumption | apply Forall_nil | apply Forall_cons].
        * apply FOP_snoc; [exact Aq| |].
          -- destruct E2 as [<-|[<-|[<-|[<-|[]]]]]; repeat first [apply FOP_nil | apply FOP_cons | apply Forall_nil | apply Forall_cons]; unfold apart; cbn [j_start j_end]; lia.
          -- intros i i' Ii Ii'. rewrite Forall_forall in Fj. specialize (Fj i Ii). unfold apart in *.
             destruct E2 as [E2|[E2|[E2|[E2|[]]]]]; rewrite <- E2 in Ii'; cbn in Ii';
               intuition (subst i'; cbn [j_start j_end]; lia).
        * exists r. split; [exact Er|]. split; [exact Dr|]. split; [exact Br|]. intros k Ik. apply Ir. apply push_in. right. exact Ik.
  Qed.

  Definition ascends (l : list nat) : Prop := StronglySorted lt l.

  Lemma last_cons : forall {A} (a b : A) l d, last (a :: b :: l) d = last (b :: l) d.
  Proof. reflexivity. Qed.

  (** The mean squared vertical distance of the columns [l..pos] from the line through
      the columns [l] and [r]. *)
  Definition chord_err (l r pos : nat) : Q :=
    (let m := (Y r - Y l) / (X r - X l) in
     let c := Y l - m * X l in
     Qsum (map (fun k => (m * X k + c - Y k) * (m * X k + c - Y k)) (seq l (S pos - l))) / Qn (S pos - l))%Q.
  Lemma backward_step : forall p l pq r pts pos,
    backward_loop X Y eps (p :: l :: pq) (r :: pts) pos =
    if Qle_bool eps (chord_err l r pos) then backward_loop X Y eps (l :: pq) (p :: r :: pts) p
    else backward_loop X Y eps (l :: pq) (r :: pts) pos.
  Proof. reflexivity. Qed.

  Lemma backward_spec : forall pq pts pos, desc pq -> ascends pts -> pq <> [] -> pts <> [] -> hd 0 pq < hd 0 pts ->
    exists r, backward_loop X Y eps pq pts pos = Ok r /\ ascends r
      /\ hd 0 r = last pq 0 /\ last r 0 = last pts 0 /\ incl r (pq ++ pts).
  Proof.
    induction pq as [|p pq IH]; intros pts pos D A N1 N2 L; [congruence|]. clear N1.
    assert (Cons : forall q, q < hd 0 pts -> ascends (q :: pts)).
    { intros q Hq. constructor; [exact A|]. destruct pts as [|t ts]; [congruence|]. cbn [hd] in Hq. inversion A; subst.
      constructor; [exact Hq|]. apply (Forall_impl _ (P := fun y => t < y)); [intros; lia|assumption]. }
    assert (LastC : forall q, last (q :: pts) 0 = last pts 0) by (intro q; destruct pts; [congruence|reflexivity]).
    cbn [hd] in L. destruct pq as [|l pq].
    - exists (p :: pts). cbn [backward_loop]. split; [reflexivity|]. split; [apply Cons; exact L|]. split; [reflexivity|].
      split; [apply LastC|]. intros k; cbn; tauto.
    - destruct pts as [|t ts] eqn:Et; [congruence|]. rewrite backward_step. rewrite <- Et in *.
      inversion D as [|? ? D' Fp]; subst l0 a. assert (Lp : l < p) by (inversion Fp; lia).
      destruct (Qle_bool eps _).
      + destruct (IH (p :: pts) p) as (r & E & Ar & Hr & Lr & Ir); [exact D'|apply Cons; exact L|discriminate|discriminate|cbn [hd]; lia|].
        exists r. split; [exact E|]. split; [exact Ar|]. split; [rewrite Hr; reflexivity|]. split; [rewrite Lr; apply LastC|].
        intros k Ik. specialize (Ir k Ik). apply in_app_or in Ir. rewrite in_app_iff. cbn [In] in *. tauto.
      + destruct (IH pts pos) as (r & E & Ar & Hr & Lr & Ir); [exact D'|exact A|discriminate|congruence|cbn [hd]; lia|].
        exists r. split; [exact E|]. split; [exact Ar|]. split; [rewrite Hr; reflexivity|]. split; [exact Lr|].
        intros k Ik. specialize (Ir k Ik). apply in_app_or in Ir. rewrite in_app_iff. cbn [In] in *. tauto.
  Qed.

  Lemma desc_ends : forall l, desc l -> (forall k, In k l -> k < n) -> In 0 l -> In (n - 1) l -> 2 <= n ->
    exists t, l = (n - 1) :: t /\ desc t /\ t <> [] /\ last t 0 = 0 /\ hd 0 t < n - 1.
  Proof.
    intros l D B I0 In1 Hn. destruct l as [|t l]; [destruct I0|]. inversion D as [|? ? D' F]; subst. rewrite Forall_forall in F.
    assert (t = n - 1).
    { destruct In1 as [E|I]; [exact E|]. specialize (F _ I). specialize (B t (or_introl eq_refl)). lia. }
    subst t. exists l. split; [reflexivity|]. split; [exact D'|]. destruct I0 as [E|I0]; [lia|].
    split; [intros ->; destruct I0|]. split.
    - clear - D' I0. induction D' as [|a l D IH F]; [reflexivity|]. destruct l as [|b l]; [destruct I0 as [->|[]]; reflexivity|].
      rewrite last_cons. apply IH. destruct I0 as [->|I0]; [|exact I0]. inversion F; lia.
    - destruct l as [|a l]; [destruct I0|]. cbn [hd]. specialize (F a (or_introl eq_refl)). lia.
  Qed.

  (** The selected columns: strictly increasing, from the first to the last. *)
  Theorem regress_spec : 2 <= n -> exists idx, regress X Y n eps ms = Ok idx
    /\ ascends idx /\ hd 0 idx = 0 /\ last idx 0 = n - 1 /\ (forall k, In k idx -> k < n) /\ 2 <= length idx.
  Proof.
    intro Hn. unfold regress. destruct (Nat.ltb_spec n 2); [lia|].
    assert (E0 : pq_push (n - 1) [0] = [n - 1; 0]) by (cbn; reflexivity). rewrite E0.
    destruct (forward_loop_spec (2 * n) [Job 0 (n - 1) (-1) 0] [n - 1; 0]) as (r & -> & D & B & I).
    - unfold cost. cbn [map list_sum fold_right j_start j_end]. lia.
    - constructor; [constructor; constructor|constructor; [lia|constructor]].
    - repeat constructor; lia.
    - constructor; [|constructor]. split; [cbn; lia|]. split; [cbn; tauto|]. split; [cbn; tauto|].
      cbn [j_start j_end]. intros k [<-|[<-|[]]]; lia.
    - constructor; constructor.
    - cbn [bind]. rewrite Forall_forall in B.
      destruct (desc_ends r D B) as (t & -> & Dt & Nt & Lt & Ht); [apply I; cbn; tauto|apply I; cbn; tauto|exact Hn|].
      destruct t as [|pos t]; [congruence|].
      destruct (backward_spec (pos :: t) [n - 1] pos) as (idx & E & A & H1 & H2 & H3); [exact Dt|constructor; constructor|exact Nt|discriminate|cbn [hd] in *; exact Ht|].
      exists idx. split; [exact E|]. split; [exact A|]. split; [rewrite H1; exact Lt|]. split; [rewrite H2; reflexivity|]. split.
      + intros k Ik. specialize (H3 k Ik). apply in_app_or in H3. destruct H3 as [H3|[<-|[]]]; [apply B; right; exact H3|lia].
      + destruct idx as [|a [|b idx]]; cbn [length hd last] in *; lia.
  Qed.

  (** *** The split that is chosen *)
  Section Split.
    Variables a b : nat.
    Hypothesis Hab : a < b.
    Hypothesis HX : forall i j, a <= i -> i < j -> j <= b -> (X i < X j)%Q.

    (** The line through the columns [p] and [q]. *)
    Definition line (p q k : nat) : Q := (Y p + (Y q - Y p) / (X q - X p) * (X k - X p))%Q.
    (** The summed squared distances from the two lines that meet in column [s]. *)
    Definition sse_left (s : nat) : Q := Qsum (map (fun k => (Y k - line a s k) * (Y k - line a s k))%Q (seq (S a) (s - a))).
    Definition sse_right (s : nat) : Q := Qsum (map (fun k => (Y k - line b s k) * (Y k - line b s k))%Q (seq (S s) (b - s - 1))).
    Definition split_err (s : nat) : Q := ((sse_left s + sse_right s) / Qn (b - a))%Q.

    Lemma quad_sum : forall (x y : nat -> Q) m l,
      (Qsum (map (fun k => (y k - m * x k) * (y k - m * x k)) l)
       == Qsum (map (fun k => y k * y k) l) - 2 * Qsum (map (fun k => x k * y k) l) * m + Qsum (map (fun k => x k * x k) l) * m * m)%Q.
    Proof. intros x y m l. induction l as [|k l IH]; cbn [map Qsum]; [ring|]. rewrite IH. ring. Qed.

    Lemma sq_sum_nonneg : forall (f : nat -> Q) l, (0 <= Qsum (map (fun k => f k * f k) l))%Q.
    Proof. intros f l. apply Qsum_map_nonneg. intros k _. generalize (f k) as q. intro q.
      destruct (Qlt_le_dec q 0); [setoid_replace (q * q)%Q with ((- q) * (- q))%Q by ring|]; apply Qmult_le_0_compat; lra. Qed.

    Lemma Qn_pos : forall k, 0 < k -> (0 < Qn k)%Q.
    Proof. intros k H. unfold Qn, inject_Z, Qlt. cbn [Qnum Qden]. lia. Qed.
    Lemma Qn_sub : forall i j, i <= j -> (Qn (j - i) == Qn j - Qn i)%Q.
    Proof. intros i j H. unfold Qn. rewrite Nat2Z.inj_sub by lia. unfold inject_Z, Qeq, Qminus, Qplus, Qopp. cbn [Qnum Qden]. lia. Qed.

    Lemma split_err_nonneg : forall s, (0 <= split_err s)%Q.
    Proof.
      intro s. unfold split_err. apply Qle_shift_div_l; [apply Qn_pos; lia|].
      assert (A : (0 <= sse_left s)%Q) by (unfold sse_left; apply (sq_sum_nonneg (fun k => Y k - line a s k)%Q)).
      assert (B : (0 <= sse_right s)%Q) by (unfold sse_right; apply (sq_sum_nonneg (fun k => Y k - line b s k)%Q)).
      lra.
    Qed.

    (** After the candidates [a+1 .. a+k]. *)
    Record split_inv (mse0 : Q) (k : nat) (s : sums) : Prop := {
      si_xl : (x_sq_left s == Qsum (map (fun i => (X i - X a) * (X i - X a)) (seq (S a) k)))%Q;
      si_yl : (y_sq_left s == Qsum (map (fun i => (Y i - Y a) * (Y i - Y a)) (seq (S a) k)))%Q;
      si_xyl : (xy_left s == Qsum (map (fun i => (X i - X a) * (Y i - Y a)) (seq (S a) k)))%Q;
      si_xr : (x_sq_right s == Qsum (map (fun i => (X i - X b) * (X i - X b)) (seq (S a + k) (b - a - 1 - k))))%Q;
      si_yr : (y_sq_right s == Qsum (map (fun i => (Y i - Y b) * (Y i - Y b)) (seq (S a + k) (b - a - 1 - k))))%Q;
      si_xyr : (xy_right s == Qsum (map (fun i => (X i - X b) * (Y i - Y b)) (seq (S a + k) (b - a - 1 - k))))%Q;
      si_best : match best s with
                | None => (mse_min s == mse0)%Q /\ (0 < k -> (0 <= mse0)%Q) /\ (forall t, a < t <= a + k -> (mse0 <= split_err t)%Q)
                | Some (t, el, er) => a < t <= a + k
                    /\ (el == sse_left t / Qn (t - a))%Q /\ (er == sse_right t / Qn (b - t))%Q
                    /\ (mse_min s == split_err t)%Q
                    /\ (mse0 < 0 \/ split_err t < mse0)%Q
                    /\ (forall u, a < u <= a + k -> (split_err t <= split_err u)%Q)
                end
    }.

    Lemma split_step : forall mse0 k s, S k <= b - a - 1 -> split_inv mse0 k s -> split_inv mse0 (S k) (try_split X Y a b s (S a + k)).
    Proof.
      intros mse0 k s Hk [Hxl Hyl Hxyl Hxr Hyr Hxyr Hb].
      set (t := S a + k) in *. assert (Ht : a < t < b) by lia.
      assert (Sl : forall f : nat -> Q, (Qsum (map f (seq (S a) (S k))) == Qsum (map f (seq (S a) k)) + f t)%Q).
      { intro f. rewrite seq_S, map_app, Qsum_app. cbn [map Qsum]. fold t. ring. }
      assert (Sr : forall f : nat -> Q, (Qsum (map f (seq t (b - a - 1 - k))) == f t + Qsum (map f (seq (S a + S k) (b - a - 1 - S k))))%Q).
      { intro f. replace (b - a - 1 - k) with (S (b - a - 1 - S k)) by lia. cbn [seq map Qsum]. replace (S a + S k) with (S t) by lia. reflexivity. }
      assert (Xa : (0 < X t - X a)%Q) by (pose proof (HX a t ltac:(lia) ltac:(lia) ltac:(lia)); lra).
      assert (Xb : (X t - X b < 0)%Q) by (pose proof (HX t b ltac:(lia) ltac:(lia) ltac:(lia)); lra).
      assert (Kta : t - a = S k) by lia.
      (* the two errors *)
      set (xl := (X t - X a)%Q) in *. set (yl := (Y t - Y a)%Q) in *. set (xr := (X t - X b)%Q) in *. set (yr := (Y t - Y b)%Q) in *.
      set (m1 := (yl / xl)%Q). set (m2 := ((0 - yr) / (0 - xr))%Q).
      assert (EL : (y_sq_left s + yl * yl - 2 * (xy_left s + xl * yl) * m1 + (x_sq_left s + xl * xl) * m1 * m1 == sse_left t)%Q).
      { unfold sse_left. rewrite Kta.
        transitivity (Qsum (map (fun i => (Y i - Y a - m1 * (X i - X a)) * (Y i - Y a - m1 * (X i - X a))) (seq (S a) (S k))))%Q.
        - rewrite (quad_sum (fun i => X i - X a)%Q (fun i => Y i - Y a)%Q m1). cbv beta. rewrite !Sl. rewrite Hxl, Hyl, Hxyl. reflexivity.
        - apply Qsum_map_ext. intros i _. unfold line. fold yl xl m1. ring. }
      assert (ER : (y_sq_right s - yr * yr - 2 * (xy_right s - xr * yr) * m2 + (x_sq_right s - xr * xr) * m2 * m2 == sse_right t)%Q).
      { unfold sse_right. replace (b - t - 1) with (b - a - 1 - S k) by lia. replace (S t) with (S a + S k) by lia.
        transitivity (Qsum (map (fun i => (Y i - Y b - m2 * (X i - X b)) * (Y i - Y b - m2 * (X i - X b))) (seq (S a + S k) (b - a - 1 - S k))))%Q.
        - rewrite (quad_sum (fun i => X i - X b)%Q (fun i => Y i - Y b)%Q m2). cbv beta.
          rewrite Hxr, Hyr, Hxyr. rewrite !Sr. cbv beta. fold xr yr. ring.
        - apply Qsum_map_ext. intros i _. unfold line. fold yr xr.
          assert (E2 : (yr / xr == m2)%Q) by (unfold m2; field; repeat split; lra). rewrite E2. ring. }
      pose proof (Qn_pos (t - a) ltac:(lia)) as Pl. pose proof (Qn_pos (b - t) ltac:(lia)) as Pr. pose proof (Qn_pos (b - a) ltac:(lia)) as Pn.
      set (el := ((y_sq_left s + yl * yl - 2 * (xy_left s + xl * yl) * m1 + (x_sq_left s + xl * xl) * m1 * m1) / Qn (t - a))%Q).
      set (er := ((y_sq_right s - yr * yr - 2 * (xy_right s - xr * yr) * m2 + (x_sq_right s - xr * xr) * m2 * m2) / Qn (b - t))%Q).
      set (mse := (Qn (t - a) / Qn (b - a) * el + Qn (b - t) / Qn (b - a) * er)%Q).
      assert (Eel : (el == sse_left t / Qn (t - a))%Q) by (unfold el; rewrite EL; reflexivity).
      assert (Eer : (er == sse_right t / Qn (b - t))%Q) by (unfold er; rewrite ER; reflexivity).
      assert (EM : (mse == split_err t)%Q).
      { unfold mse, split_err. rewrite Eel, Eer. field. repeat split; lra. }
      assert (ET : try_split X Y a b s t =
        let c := Qltb (mse_min s) 0 || Qltb mse (mse_min s) in
        Sums (x_sq_left s + xl * xl) (y_sq_left s + yl * yl) (xy_left s + xl * yl)
             (x_sq_right s - xr * xr) (y_sq_right s - yr * yr) (xy_right s - xr * yr)
             (if c then mse else mse_min s) (if c then Some (t, el, er) else best s)) by reflexivity.
      rewrite ET. cbv zeta. clear ET. clearbody el er mse.
      split; cbn [x_sq_left y_sq_left xy_left x_sq_right y_sq_right xy_right best mse_min].
      1-3: rewrite Sl; rewrite ?Hxl, ?Hyl, ?Hxyl; reflexivity.
      1: rewrite Hxr, Sr. 2: rewrite Hyr, Sr. 3: rewrite Hxyr, Sr.
      1-3: cbv beta; fold xr yr; ring.
      replace (a + S k) with t by lia. pose proof (split_err_nonneg t) as P.
      unfold Qltb. destruct (Qltb_spec (mse_min s) 0) as [Lt|Ge]; cbn [orb].
      - destruct (best s) as [[[t' el'] er']|].
        + destruct Hb as (_ & _ & _ & H & _). pose proof (split_err_nonneg t'). exfalso. lra.
        + destruct Hb as (H0 & H1 & H2). repeat split; try lia; try assumption; [left; lra|].
          intros u Hu. assert (u = t \/ u <= a + k) as [->|Hu'] by lia; [lra|].
          destruct k as [|k']; [lia|]. assert (0 <= mse0)%Q by (apply H1; lia). lra.
      - apply Qnot_lt_le in Ge. destruct (Qltb_spec mse (mse_min s)) as [Lt|Le].
        + destruct (best s) as [[[t' el'] er']|].
          * destruct Hb as (H0 & H1 & H2 & H3 & H4 & H5). repeat split; try lia; try assumption; [destruct H4; [left|right]; lra|].
            intros u Hu. assert (u = t \/ u <= a + k) as [->|Hu'] by lia; [lra|].
            assert (split_err t' <= split_err u)%Q by (apply H5; lia). lra.
          * destruct Hb as (H0 & H1 & H2). repeat split; try lia; try assumption; [right; lra|].
            intros u Hu. assert (u = t \/ u <= a + k) as [->|Hu'] by lia; [lra|].
            assert (mse0 <= split_err u)%Q by (apply H2; lia). lra.
        + apply Qnot_lt_le in Le. destruct (best s) as [[[t' el'] er']|].
          * destruct Hb as (H0 & H1 & H2 & H3 & H4 & H5). repeat split; try lia; try assumption.
            intros u Hu. assert (u = t \/ u <= a + k) as [->|Hu'] by lia; [lra|]. apply H5. lia.
          * destruct Hb as (H0 & H1 & H2). repeat split; try assumption; [intros; lra|].
            intros u Hu. assert (u = t \/ u <= a + k) as [->|Hu'] by lia; [lra|]. apply H2. lia.
    Qed.

    Lemma split_fold : forall mse0 k s, k <= b - a - 1 -> split_inv mse0 0 s ->
      split_inv mse0 k (fold_left (try_split X Y a b) (seq (S a) k) s).
    Proof.
      intros mse0 k s. induction k as [|k IH]; intros Hk H0; [exact H0|]. rewrite seq_S, fold_left_app. cbn [fold_left].
      apply split_step; [exact Hk|]. apply IH; [lia|exact H0].
    Qed.

    Definition start_sums (mse0 : Q) : sums := Sums 0 0 0
      (Qsum (map (fun i => ((X i - X b) * (X i - X b))%Q) (inside a b)))
      (Qsum (map (fun i => ((Y i - Y b) * (Y i - Y b))%Q) (inside a b)))
      (Qsum (map (fun i => ((X i - X b) * (Y i - Y b))%Q) (inside a b))) mse0 None.

    Lemma start_inv : forall mse0, split_inv mse0 0 (start_sums mse0).
    Proof.
      intro mse0. split; cbn; try reflexivity.
      1-3: unfold inside; replace (a + 0) with a by lia; replace (b - a - 1 - 0) with (b - a - 1) by lia; reflexivity.
      split; [reflexivity|]. split; intros; lia.
    Qed.

    (** The outcome of the search. *)
    Theorem split_search : forall mse0,
      match best (fold_left (try_split X Y a b) (inside a b) (start_sums mse0)) with
      | None => forall t, a < t < b -> (0 <= mse0 <= split_err t)%Q
      | Some (t, el, er) => a < t < b
          /\ (el == sse_left t / Qn (t - a))%Q /\ (er == sse_right t / Qn (b - t))%Q
          /\ (mse0 < 0 \/ split_err t < mse0)%Q
          /\ (forall u, a < u < b -> (split_err t <= split_err u)%Q)
      end.
    Proof.
      intro mse0. unfold inside. pose proof (split_fold mse0 (b - a - 1) _ (le_n _) (start_inv mse0)) as K.
      apply si_best in K. destruct (best _) as [[[t el] er]|].
      - destruct K as (H0 & H1 & H2 & H3 & H4 & H5). repeat split; try lia; try assumption. intros u Hu. apply H5. lia.
      - destruct K as (H0 & H1 & H2). intros t Ht. split; [apply H1; lia|apply H2; lia].
    Qed.
  End Split.
End Reg.
