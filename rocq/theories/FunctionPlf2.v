(** Proofs about piecewise functions: simplification, interpolation and the
    integral of a shifted function. *)
Require Import ZArith QArith Qabs Bool List Lia Lqa.
Require Import Verif.Base Verif.FloatLine Verif.FloatVal Verif.IntervalModel Verif.IntervalSpec Verif.NumBase.
Require Import Verif.IntervalProofs Verif.IntervalDiff Verif.RealSetProofs Verif.RealSetOps Verif.IntervalMore.
Require Import Verif.FunctionModel Verif.FunctionSpec Verif.FunctionProofs Verif.FunctionPlf Verif.FunctionInt.
Import ListNotations.
Open Scope Z_scope.

Lemma asc_inv : forall a l, ascending (a :: l) -> Forall (before a) l /\ ascending l.
Proof. intros a l H. inversion H; subst. auto. Qed.

Lemma pieces_inv : forall i f p, pieces ((i, f) :: p) ->
  wf i /\ (exists x, cs_mem x i) /\ Forall (before i) (ivs p) /\ pieces p.
Proof.
  intros i f p (W & N & A). unfold pieces, ivs in *. cbn [map fst] in *. apply asc_inv in A. destruct A as [A1 A2].
  pose proof (Forall_inv W). pose proof (Forall_inv_tail W). pose proof (Forall_inv N). pose proof (Forall_inv_tail N). auto 10.
Qed.

Lemma pieces_cons : forall i f p, wf i -> (exists x, cs_mem x i) -> Forall (before i) (ivs p) -> pieces p -> pieces ((i, f) :: p).
Proof.
  intros i f p W N B (W' & N' & A). unfold pieces, ivs in *. cbn [map fst]. split; [|split]; constructor; assumption.
Qed.

(** ** Sorting ascending pieces *)

Lemma cmp_sort_ascending : forall p, pieces p -> cmp_sort p = Ok p.
Proof.
  induction p as [|[i f] p IH]; intro P; [reflexivity|]. apply pieces_inv in P. destruct P as (W & N & B & P).
  cbn [cmp_sort]. rewrite IH by exact P. cbn [bind].
  destruct p as [|[j g] p]; [reflexivity|]. cbn [cmp_insert fst]. apply pieces_inv in P. destruct P as (W' & N' & _).
  apply Forall_inv in B. rewrite (proj2 (proj1 (comparator_spec i j W W' N N')) B). reflexivity.
Qed.

(** ** simplify *)

Definition opt_list {A} (o : option A) : list A := match o with None => [] | Some a => [a] end.

Lemma contiguous_before : forall a b, wf a -> wf b -> (exists x, cs_mem x a) -> (exists x, cs_mem x b) -> before a b ->
  cs_contiguous b a = true ->
  (forall x, cs_mem x (CS (lower a) (upper b) (left a) (right b)) <-> cs_mem x a \/ cs_mem x b)
  /\ wf (CS (lower a) (upper b) (left a) (right b)).
Proof.
  intros a b Wa Wb (xa & Xa) (xb & Xb) Bf C. specialize (Bf xa xb Xa Xb).
  assert (E : lower b = upper a /\ ((right a = INC /\ left b = EXC) \/ (right a = EXC /\ left b = INC))).
  { unfold cs_contiguous in C. unfold cs_mem in *.
    destruct (Z.eqb_spec (lower b) (upper a)) as [E|E], (Z.eqb_spec (upper b) (lower a)) as [E'|E'];
      destruct (left a), (right a), (left b), (right b); cbn [flag_val] in C; cbn in C; try discriminate; try lia; auto. }
  clear C. destruct E as [E F]. split.
  - intro x. unfold cs_mem in *. cbn [lower upper left right].
    destruct F as [[Fa Fb]|[Fa Fb]]; rewrite Fa, Fb in *; destruct (left a), (right b); unfold finite in *; lia.
  - destruct Wa as (a1 & a2 & a3 & a4 & a5 & a6 & a7), Wb as (b1 & b2 & b3 & b4 & b5 & b6 & b7).
    unfold wf. cbn [lower upper left right]. split; [lia|]. auto 10.
Qed.

Lemma plf_at_app : forall p q x, plf_at (p ++ q) x = match plf_at p x with Some f => Some f | None => plf_at q x end.
Proof.
  induction p as [|[i f] p IH]; intros q x; cbn [app plf_at]; [reflexivity|]. destruct (piece_has i x); [reflexivity|apply IH].
Qed.

Lemma same_values_refl : forall p, same_values p p.
Proof. intro p. split; tauto. Qed.

Lemma same_values_trans : forall p q r, same_values p q -> same_values q r -> same_values p r.
Proof.
  intros p q r [A B] [C D]. split; intros.
  - rewrite (A x H). apply C. exact H.
  - rewrite (B x y H). apply D. exact H.
Qed.

Lemma same_values_cons : forall s p q, same_values p q -> same_values (s :: p) (s :: q).
Proof.
  intros [i f] p q [A B]. split.
  - intros x F. unfold in_dom in *. cbn [ivs map fst]. rewrite !rs_mem_cons. specialize (A x F). unfold ivs in A. tauto.
  - intros x y F. specialize (B x y F). rewrite !plf_is_at in *. rewrite !plf_at_cons by exact F.
    destruct (cs_contains_value i x); [tauto|exact B].
Qed.

Lemma pieces_tail : forall s p, pieces (s :: p) -> pieces p.
Proof. intros s p (W & N & A). unfold pieces, ivs in *. cbn [map] in *. inversion W; inversion N; inversion A; subst. auto. Qed.

Lemma merge_values : forall i f j g p, pieces ((i, f) :: (j, g) :: p) -> cs_contiguous j i = true -> fn_eq g f = Ok true ->
  same_values ((CS (lower i) (upper j) (left i) (right j), f) :: p) ((i, f) :: (j, g) :: p)
  /\ pieces ((CS (lower i) (upper j) (left i) (right j), f) :: p).
Proof.
  intros i f j g p P C E. apply pieces_inv in P. destruct P as (Wi & Ni & Fi & P). apply pieces_inv in P.
  destruct P as (Wj & Nj & Fj & P). pose proof (Forall_inv Fi) as Bij. pose proof (Forall_inv_tail Fi) as Bi. cbn [fst] in Bij.
  destruct (contiguous_before i j Wi Wj Ni Nj Bij C) as [M Wm]. split; [split|].
  - intros x F. unfold in_dom. cbn [ivs map fst]. rewrite !rs_mem_cons, (M x). tauto.
  - intros x y F. rewrite !plf_is_at. rewrite !plf_at_cons by exact F. specialize (M x).
    pose proof (contains_value_spec (CS (lower i) (upper j) (left i) (right j)) x F) as Sm.
    pose proof (contains_value_spec i x F) as Si. pose proof (contains_value_spec j x F) as Sj.
    destruct (cs_contains_value (CS (lower i) (upper j) (left i) (right j)) x), (cs_contains_value i x), (cs_contains_value j x);
      try tauto; try (exfalso; assert (false = true) by tauto; discriminate).
    pose proof (fn_eq_sound g f true E eq_refl (dval x) y) as K.
    split; intros (h & [= <-] & H); eexists; (split; [reflexivity|]); tauto.
  - apply pieces_cons; [exact Wm| | |exact P].
    + destruct Ni as (x & X). exists x. apply M. auto.
    + rewrite Forall_forall in Fj, Bi |- *. intros k Ik a b Ma Mb. apply M in Ma.
      destruct Ma as [Ma|Ma]; [exact (Bi k Ik a b Ma Mb)|exact (Fj k Ik a b Ma Mb)].
Qed.

Definition head_ok (c : cs * fn) (t : plf) : Prop := exists j t', t = (j, snd c) :: t' /\ lower j = lower (fst c) /\ left j = left (fst c).

Lemma keep_head : forall i f p q, pieces ((i, f) :: p) -> same_values q p -> pieces q -> pieces ((i, f) :: q).
Proof.
  intros i f p q P V Q. apply pieces_inv in P. destruct P as (W & N & B & _). apply pieces_cons; try assumption.
  rewrite Forall_forall. intros k Ik x y X Y. assert (D : in_dom q y) by (exists k; auto).
  apply (proj1 V y (proj1 Y)) in D. destruct D as (k' & Ik' & Y'). rewrite Forall_forall in B. exact (B k' Ik' x y X Y').
Qed.

Lemma simp_loop_spec : forall segs cur r, pieces (opt_list cur ++ segs) -> simp_loop cur segs = Ok r ->
  same_values r (opt_list cur ++ segs) /\ pieces r /\ simplified r
  /\ match cur with None => True | Some c => head_ok c r end.
Proof.
  induction segs as [|[i f] segs IH]; intros cur r P E; cbn [simp_loop] in E.
  - injection E as <-. destruct cur as [[j g]|]; cbn [opt_list app] in *.
    + split; [apply same_values_refl|]. split; [exact P|]. split; [exact I|]. exists j, []. auto.
    + split; [apply same_values_refl|]. split; [exact P|]. split; exact I.
  - assert (Ne : cs_isempty i = false).
    { destruct P as (W & N & _). unfold ivs in W, N. rewrite map_app in W, N. apply Forall_app in W. apply Forall_app in N.
      destruct W as [_ W], N as [_ N]. apply Forall_inv in W. apply Forall_inv in N. cbn [fst] in *.
      destruct (cs_isempty i) eqn:Ei; [|reflexivity]. destruct N as (x & X). destruct (proj1 (isempty_spec i W) Ei x X). }
    rewrite Ne in E. destruct cur as [[j g]|]; cbn [opt_list app] in *.
    + destruct (cs_contiguous i j) eqn:C.
      * destruct (fn_eq f g) as [e|] eqn:Ee; cbn [bind] in E; [|discriminate]. destruct e.
        -- destruct (merge_values j g i f segs P C Ee) as [V P'].
           destruct (IH (Some (CS (lower j) (upper i) (left j) (right i), g)) r P' E) as (V' & K & S & Hd).
           split; [exact (same_values_trans _ _ _ V' V)|]. split; [exact K|]. split; [exact S|].
           destruct Hd as (k & t & -> & E1 & E2). cbn [fst snd lower left] in *. exists k, t. auto.
        -- destruct (simp_loop (Some (i, f)) segs) as [t|] eqn:Et; cbn [bind] in E; [|discriminate]. injection E as <-.
           destruct (IH (Some (i, f)) t (pieces_tail _ _ P) Et) as (V & K & S & Hd).
           split; [apply same_values_cons; exact V|]. destruct Hd as (k & t' & -> & E1 & E2). cbn [fst snd] in *. split; [|split].
           ++ apply (keep_head j g ((i, f) :: segs)); assumption.
           ++ cbn [simplified]. split; [right; exact Ee|exact S].
           ++ exists j, ((k, f) :: t'). auto.
      * cbn [bind] in E. destruct (simp_loop (Some (i, f)) segs) as [t|] eqn:Et; cbn [bind] in E; [|discriminate]. injection E as <-.
        destruct (IH (Some (i, f)) t (pieces_tail _ _ P) Et) as (V & K & S & Hd).
        split; [apply same_values_cons; exact V|]. destruct Hd as (k & t' & -> & E1 & E2). cbn [fst snd] in *. split; [|split].
        ++ apply (keep_head j g ((i, f) :: segs)); assumption.
        ++ cbn [simplified]. split; [|exact S]. left. apply pieces_inv in P. destruct P as (Wj & Nj & Fj & P).
           apply pieces_inv in P. destruct P as (Wi & Ni & _ & _). pose proof (Forall_inv Fj) as Bj. cbn [fst] in Bj.
           apply pieces_inv in K. destruct K as (_ & Nk & _).
           destruct (cs_contiguous k j) eqn:Ck; [|reflexivity].
           (* same lower bound and flag as i: contiguity with j only depends on it *)
           unfold cs_contiguous in C, Ck. rewrite E1, E2 in Ck.
           destruct ((lower i =? upper j) && (flag_val (right j) + flag_val (left i) =? 3)); [discriminate|].
           destruct (Z.eqb_spec (upper k) (lower j)) as [Q|Q]; cbn [andb] in Ck; [|discriminate].
           exfalso. destruct Nj as (xj & Xj), Ni as (xi & Xi), Nk as (xk & Xk). specialize (Bj xj xi Xj Xi).
           assert (Li : lower i <= lower j).
           { destruct Xk as (_ & X1 & X2), Xj as (_ & X3 & _). destruct (left k), (right k), (left j); lia. }
           assert (xj < xk).
           { assert (D : in_dom ((k, f) :: t') xk) by (exists k; split; [left; reflexivity|exact Xk]).
             apply (proj1 V xk (proj1 Xk)) in D. destruct D as (q' & Iq' & Y'). cbn [ivs map fst] in Iq'.
             rewrite Forall_forall in Fj. exact (Fj q' Iq' xj xk Xj Y'). }
           unfold cs_mem in Xk, Xj. destruct (left j), (right k); lia.
        ++ exists j, ((k, f) :: t'). auto.
    + destruct (IH (Some (i, f)) r P E) as (V & K & S & _). split; [exact V|]. auto.
Qed.

Lemma plf_simplify_spec : forall p r, pieces p -> plf_simplify p = Ok r -> same_values r p /\ pieces r /\ simplified r.
Proof.
  intros p r P E. unfold plf_simplify in E. rewrite cmp_sort_ascending in E by exact P. cbn [bind] in E.
  destruct (simp_loop_spec p None r P E) as (A & B & C & _). auto.
Qed.

Lemma fn_eq_affine_ok : forall f g, affine f -> affine g -> exists b, fn_eq f g = Ok b.
Proof. intros [] [] A B; cbn in *; try contradiction; eauto. Qed.

Lemma simp_loop_ok : forall segs cur, affines (opt_list cur ++ segs) -> exists r, simp_loop cur segs = Ok r.
Proof.
  induction segs as [|[i f] segs IH]; intros cur A; cbn [simp_loop]; [eauto|].
  destruct cur as [[j g]|]; cbn [opt_list app] in A.
  - inversion A as [|? ? Ag A']; subst. inversion A' as [|? ? Af A'']; subst. cbn [snd] in *.
    destruct (cs_isempty i).
    + apply (IH (Some (j, g))). constructor; assumption.
    + destruct (IH (Some (i, f))) as [t Et]; [constructor; assumption|].
      destruct (cs_contiguous i j).
      * destruct (fn_eq_affine_ok f g Af Ag) as [b ->]. cbn [bind]. destruct b.
        -- apply IH. constructor; assumption.
        -- rewrite Et. cbn [bind]. eauto.
      * cbn [bind]. rewrite Et. cbn [bind]. eauto.
  - inversion A as [|? ? Af A']; subst. destruct (cs_isempty i); [apply (IH None); exact A'|apply (IH (Some (i, f))); constructor; assumption].
Qed.

Lemma plf_simplify_ok : forall p, pieces p -> affines p -> exists r, plf_simplify p = Ok r.
Proof.
  intros p P A. unfold plf_simplify. rewrite cmp_sort_ascending by exact P. cbn [bind]. apply simp_loop_ok. exact A.
Qed.

(** ** Interpolation *)

Lemma from_points_interp : forall x1 y1 x2 y2 x, ~ (x1 == x2)%Q ->
  exists f, lin_from_points (x1, y1) (x2, y2) = Ok f /\ affine f /\ fn_is f x (interpolate x1 y1 x2 y2 x).
Proof.
  intros x1 y1 x2 y2 x N. unfold lin_from_points, interpolate. destruct (Qeqb_spec x1 x2) as [E|_]; [contradiction|].
  assert (N' : ~ (x2 - x1 == 0)%Q) by (intro H; apply N; lra).
  destruct (Qeqb_spec y2 y1) as [E|E]; eexists; (split; [reflexivity|]); (split; [exact I|]); unfold fn_is; cbn [fn_eval];
    eexists; (split; [reflexivity|]).
  - rewrite E. field. exact N'.
  - field. exact N'.
Qed.

Lemma consecutive_cons : forall {A} (p q a b : A) l, consecutive p q (a :: b :: l) <-> (p = a /\ q = b) \/ consecutive p q (b :: l).
Proof.
  intros A p q a b l. split.
  - intros (l1 & l2 & E). destruct l1 as [|c l1]; cbn in E.
    + left. injection E as -> ->. auto.
    + right. exists l1, l2. congruence.
  - intros [[-> ->]|(l1 & l2 & E)]; [exists [], l; reflexivity|]. exists (a :: l1), l2. cbn. rewrite E. reflexivity.
Qed.

Lemma consecutive_short : forall {A} (p q a : A), ~ consecutive p q [a].
Proof. intros A p q a (l1 & l2 & E). destruct l1 as [|? [|? ?]]; discriminate. Qed.

Lemma fp_cons : forall x1 y1 x2 y2 pts, fp_pieces ((x1, y1) :: (x2, y2) :: pts) =
  (do i <- mk_cs x1 x2 INC EXC;
   if cs_isempty i then fp_pieces ((x2, y2) :: pts)
   else do f <- lin_from_points (dval x1, y1) (dval x2, y2); do r <- fp_pieces ((x2, y2) :: pts); Ok ((i, f) :: r)).
Proof. reflexivity. Qed.

Lemma from_points_plf : forall pts, (2 <= length pts)%nat -> increasing pts -> Forall (fun p => Z.abs (fst p) < ORD_53) pts ->
  exists r, plf_from_points pts = Ok r /\ r <> [] /\ affines r
    /\ (forall x, in_dom r x -> exists p, nth_error pts 0 = Some p /\ fst p <= x)
    /\ forall x1 y1 x2 y2, consecutive (x1, y1) (x2, y2) pts -> forall x, x1 <= x <= x2 ->
       plf_is r x (interpolate (dval x1) y1 (dval x2) y2 (dval x)).
Proof.
  induction pts as [|[x1 y1] pts IH]; intros Ln I F; [cbn in Ln; lia|].
  destruct pts as [|[x2 y2] pts]; [cbn in Ln; lia|]. destruct I as [L I]. inversion F as [|? ? F1 F']; subst. cbn [fst] in F1.
  pose proof F' as F''. inversion F'' as [|? ? F2 F3]; subst. cbn [fst] in F2. clear F'' F3.
  assert (Nq : ~ (dval x1 == dval x2)%Q) by (intro H; apply dval_inj in H; lia).
  pose proof ord_facts as OF.
  unfold plf_from_points. rewrite fp_cons. unfold mk_cs at 1. destruct (Z.ltb_spec x2 x1); [lia|]. cbn [bind].
  rewrite half_not_empty by exact L.
  destruct (from_points_interp (dval x1) y1 (dval x2) y2 0 Nq) as (f & Ef & Af & _).
  assert (Hf : forall x, fn_is f (dval x) (interpolate (dval x1) y1 (dval x2) y2 (dval x))).
  { intro x. destruct (from_points_interp (dval x1) y1 (dval x2) y2 (dval x) Nq) as (g & Eg & _ & Hg). congruence. }
  rewrite Ef. cbn [bind]. destruct pts as [|[x3 y3] pts].
  - clear IH. cbn [fp_pieces bind close_last lower upper left right].
    assert (If : isfinite x2 = true) by (unfold isfinite; apply Z.ltb_lt; lia). rewrite If. unfold cs_ends. cbn [right left upper lower]. rewrite If.
    destruct (plus_eps_mod x2 (or_introl F2)) as [[_ Ep]|[D _]]; [|lia]. rewrite Ep.
    eexists. split; [reflexivity|]. split; [discriminate|]. split; [constructor; [exact Af|constructor]|]. split.
    + intros x (s & [<-|[]] & _ & M & _). cbn in M. exists (x1, y1). split; [reflexivity|exact M].
    + intros a1 b1 a2 b2 C x Lx. apply consecutive_cons in C. destruct C as [[[= -> ->] [= -> ->]]|C]; [|destruct (consecutive_short _ _ _ C)].
      apply plf_is_at. exists f. split; [|apply Hf]. apply plf_at_head; [|unfold finite; lia|cbn [lower upper]; lia].
      unfold halfopen. cbn [lower upper left right]. destruct (Z.eqb_spec x1 (- ORD_INF)); [lia|]. repeat split; lia.
  - destruct (IH ltac:(cbn [length]; lia) I F') as (r & Er & Nr & Ar & Dr & Hr). clear IH. unfold plf_from_points in Er.
    destruct (fp_pieces ((x2, y2) :: (x3, y3) :: pts)) as [q|] eqn:Eq; cbn [bind] in Er; [|discriminate]. cbn [bind].
    assert (Hx : halfopen (CS x1 x2 INC EXC)).
    { unfold halfopen. cbn [lower upper left right]. destruct (Z.eqb_spec x1 (- ORD_INF)); [lia|]. repeat split; lia. }
    assert (Ec : close_last ((CS x1 x2 INC EXC, f) :: q) = Ok ((CS x1 x2 INC EXC, f) :: r)).
    { destruct q as [|s q]; [cbn in Er; discriminate|]. change (close_last ((CS x1 x2 INC EXC, f) :: s :: q)) with
        (do r <- close_last (s :: q); Ok ((CS x1 x2 INC EXC, f) :: r)). rewrite Er. reflexivity. }
    rewrite Ec. eexists. split; [reflexivity|]. split; [discriminate|]. split; [constructor; assumption|]. split.
    + intros x D. exists (x1, y1). split; [reflexivity|]. unfold in_dom in D. cbn [ivs map fst] in D. apply rs_mem_cons in D.
      destruct D as [(_ & M & _)|D]; [exact M|]. destruct (Dr x D) as (p & [= <-] & M). cbn [fst] in *. lia.
    + intros a1 b1 a2 b2 C x Lx. apply consecutive_cons in C.
      assert (Fx : forall x, x1 <= x <= x2 -> finite x) by (intros z Lz; unfold finite; lia).
      destruct C as [[[= -> ->] [= -> ->]]|C].
      * destruct (Z.eq_dec x x2) as [->|N].
        -- apply plf_is_at. rewrite plf_at_tail by (try assumption; try apply Fx; cbn [upper]; lia). apply plf_is_at.
           pose proof (Hr x2 y2 x3 y3 (ex_intro _ [] (ex_intro _ pts eq_refl)) x2 ltac:(destruct I; lia)) as K.
           assert (Nq2 : ~ (dval x2 == dval x3)%Q) by (intro H'; apply dval_inj in H'; destruct I; lia).
           destruct K as (v & Ev & Hv). exists v. split; [exact Ev|]. rewrite Hv. unfold interpolate. field. split; lra.
        -- apply plf_is_at. exists f. split; [|apply Hf]. apply plf_at_head; [exact Hx|apply Fx; lia|cbn [lower upper]; lia].
      * assert (Mod : Z.abs x < ORD_53 /\ x2 <= x).
        { clear -C Lx I F2 F'. destruct C as (l1 & l2 & E).
          assert (In (a1, b1) ((x2, y2) :: (x3, y3) :: pts) /\ In (a2, b2) ((x2, y2) :: (x3, y3) :: pts)) as [I1 I2].
          { rewrite E. split; apply in_app_iff; right; cbn; auto. }
          rewrite Forall_forall in F'. pose proof (F' _ I1). pose proof (F' _ I2). cbn [fst] in *. split; [lia|].
          assert (K : forall l z w, increasing ((z, w) :: l) -> forall p, In p l -> z < fst p).
          { induction l as [|[z' w'] l IHl]; intros z w Hi p Ip; [destruct Ip|]. destruct Hi as [Hi1 Hi2].
            destruct Ip as [<-|Ip]; [exact Hi1|]. specialize (IHl z' w' Hi2 p Ip). lia. }
          destruct I1 as [[= <- <-]|I1]; [lia|]. specialize (K _ _ _ I _ I1). cbn [fst] in K. lia. }
        apply plf_is_at. rewrite plf_at_tail by (try exact Hx; cbn [upper]; unfold finite; lia). apply plf_is_at.
        apply (Hr _ _ _ _ C x Lx).
Qed.

(** ** The integral of a shifted function *)

Section ShiftInt.
  Variable sub : Z -> Z -> Z.
  Variable delta : Z.

  Lemma shift_prim : forall f g x x', affine f -> fn_xshift f (dval delta) = Ok g ->
    forall y y', (dval x' == dval x + dval delta)%Q -> (dval y' == dval y + dval delta)%Q ->
    (prim g (dval y) - prim g (dval x) == prim f (dval y') - prim f (dval x'))%Q.
  Proof.
    intros [|v|m c|qa qb qc] g x x' A E y y' Hx Hy; cbn in A; try contradiction; cbn [fn_xshift] in E; injection E as <-;
      cbn [prim]; rewrite Hx, Hy; ring.
  Qed.

  Lemma shift_area : forall i f g a b a' b', halfopen i -> affine f -> fn_xshift f (dval delta) = Ok g ->
    exact_at sub delta (lower i) -> exact_at sub delta (upper i) -> finite a -> finite b -> finite a' -> finite b' ->
    (dval a' == dval a + dval delta)%Q -> (dval b' == dval b + dval delta)%Q ->
    (area g a b (shift_bound sub (lower i) delta) (shift_bound sub (upper i) delta) == area f a' b' (lower i) (upper i))%Q.
  Proof.
    intros i f g a b a' b' (H1 & H2 & H3 & H4 & H5 & _) A E Xl Xu Fa Fb Fa' Fb' Ha Hb.
    destruct (shift_lt sub delta (lower i) a a' Xl Fa Fa') as [A1 A2]; [lia|exact Ha|].
    destruct (shift_lt sub delta (upper i) b b' Xu Fb Fb') as [B1 B2]; [lia|exact Hb|].
    destruct (shift_lt sub delta (lower i) b b' Xl Fb Fb') as [C1 C2]; [lia|exact Hb|].
    destruct (shift_lt sub delta (upper i) a a' Xu Fa Fa') as [D1 D2]; [lia|exact Ha|].
    assert (Hab : a < b <-> a' < b') by (rewrite <- !dval_lt_iff, Ha, Hb; split; intro; lra).
    assert (Sl : finite (lower i) -> (dval (lower i) == dval (shift_bound sub (lower i) delta) + dval delta)%Q).
    { intro Fl. unfold shift_bound. rewrite (proj2 (isfinite_spec (lower i)) Fl). destruct (Xl Fl) as [_ ->]. ring. }
    assert (Su : finite (upper i) -> (dval (upper i) == dval (shift_bound sub (upper i) delta) + dval delta)%Q).
    { intro Fl. unfold shift_bound. rewrite (proj2 (isfinite_spec (upper i)) Fl). destruct (Xu Fl) as [_ ->]. ring. }
    set (sl := shift_bound sub (lower i) delta) in *. set (su := shift_bound sub (upper i) delta) in *.
    assert (Hlu : Z.max a sl < Z.min b su <-> Z.max a' (lower i) < Z.min b' (upper i)).
    { assert (sl < su <-> lower i < upper i).
      { destruct (Z_lt_ge_dec (- ORD_INF) (lower i)) as [G1|G1]; destruct (Z_lt_ge_dec (upper i) ORD_INF) as [G2|G2].
        - assert (F1 : finite (lower i)) by (unfold finite; lia). assert (F2 : finite (upper i)) by (unfold finite; lia).
          rewrite <- !dval_lt_iff, (Sl F1), (Su F2). split; intro; lra.
        - assert (F1 : finite (lower i)) by (unfold finite; lia). destruct (Xl F1) as [Fs _].
          subst sl su. unfold shift_bound. rewrite (proj2 (isfinite_spec (lower i)) F1). unfold isfinite.
          destruct (Z.ltb_spec (Z.abs (upper i)) ORD_INF); [lia|]. unfold finite in *. lia.
        - assert (F1 : finite (upper i)) by (unfold finite; lia). destruct (Xu F1) as [Fs _].
          subst sl su. unfold shift_bound. rewrite (proj2 (isfinite_spec (upper i)) F1). unfold isfinite.
          destruct (Z.ltb_spec (Z.abs (lower i)) ORD_INF); [lia|]. unfold finite in *. lia.
        - subst sl su. unfold shift_bound, isfinite. destruct (Z.ltb_spec (Z.abs (lower i)) ORD_INF); [lia|].
          destruct (Z.ltb_spec (Z.abs (upper i)) ORD_INF); lia. }
      lia. }
    unfold area. destruct (Z.ltb_spec (Z.max a sl) (Z.min b su)) as [L|L], (Z.ltb_spec (Z.max a' (lower i)) (Z.min b' (upper i))) as [L'|L']; try lia; [|reflexivity].
    apply (shift_prim f g _ _ A E).
    - destruct (Z_lt_ge_dec a sl) as [G|G].
      + rewrite !Z.max_r by lia. apply Sl. unfold finite in *. lia.
      + rewrite !Z.max_l by lia. exact Ha.
    - destruct (Z_lt_ge_dec su b) as [G|G].
      + rewrite !Z.min_r by lia. apply Su. unfold finite in *. lia.
      + rewrite !Z.min_l by lia. exact Hb.
  Qed.

  Lemma shifted_halfopen : forall i, halfopen i -> exact_at sub delta (lower i) -> exact_at sub delta (upper i) -> halfopen (shifted sub delta i).
  Proof.
    intros i (H1 & H2 & H3 & H4 & H5 & H6 & H7) Xl Xu. unfold halfopen, shifted. cbn [lower upper left right]. rewrite H6, H7.
    assert (Kl : (lower i = - ORD_INF /\ shift_bound sub (lower i) delta = - ORD_INF)
                 \/ (finite (lower i) /\ finite (shift_bound sub (lower i) delta) /\ (dval (shift_bound sub (lower i) delta) == dval (lower i) - dval delta)%Q)).
    { unfold shift_bound, isfinite. destruct (Z.ltb_spec (Z.abs (lower i)) ORD_INF).
      - right. assert (F : finite (lower i)) by (unfold finite; lia). split; [exact F|apply Xl; exact F].
      - left. lia. }
    assert (Ku : (upper i = ORD_INF /\ shift_bound sub (upper i) delta = ORD_INF)
                 \/ (finite (upper i) /\ finite (shift_bound sub (upper i) delta) /\ (dval (shift_bound sub (upper i) delta) == dval (upper i) - dval delta)%Q)).
    { unfold shift_bound, isfinite. destruct (Z.ltb_spec (Z.abs (upper i)) ORD_INF).
      - right. assert (F : finite (upper i)) by (unfold finite; lia). split; [exact F|apply Xu; exact F].
      - left. lia. }
    assert (Le : shift_bound sub (lower i) delta <= shift_bound sub (upper i) delta).
    { destruct Kl as [[_ ->]|(F1 & F2 & E1)], Ku as [[_ ->]|(F3 & F4 & E2)]; unfold finite in *; try lia.
      apply dval_le_iff. rewrite E1, E2. apply dval_le_iff in H2. lra. }
    pose proof ord_facts.
    assert (Fl : (if lower i =? - ORD_INF then EXC else INC) = (if shift_bound sub (lower i) delta =? - ORD_INF then EXC else INC)).
    { destruct Kl as [[-> ->]|(F1 & F2 & _)]; [reflexivity|]. unfold finite in *.
      destruct (Z.eqb_spec (lower i) (- ORD_INF)), (Z.eqb_spec (shift_bound sub (lower i) delta) (- ORD_INF)); try reflexivity; lia. }
    unfold finite in *. repeat split; try assumption; try lia.
  Qed.

  Lemma shift_areas : forall p r a b a' b', plf_xshift sub p delta = Ok r -> Forall halfopen (ivs p) -> affines p ->
    Forall (fun i => exact_at sub delta (lower i) /\ exact_at sub delta (upper i)) (ivs p) ->
    finite a -> finite b -> finite a' -> finite b' ->
    (dval a' == dval a + dval delta)%Q -> (dval b' == dval b + dval delta)%Q ->
    (areas r a b == areas p a' b')%Q /\ Forall halfopen (ivs r) /\ affines r.
  Proof.
    intros p r a b a' b' E H A X Fa Fb Fa' Fb' Ha Hb. unfold plf_xshift in E. apply mapM_Forall2 in E. revert H A X.
    induction E as [|[i f] [j g] p r Es E IH]; intros H A X; [split; [reflexivity|split; constructor]|].
    cbn [fst snd] in Es. destruct (fn_xshift f (dval delta)) as [g'|] eqn:Eg; cbn [bind] in Es; [|discriminate].
    injection Es as <- <-. unfold ivs in *. cbn [map fst] in *.
    pose proof (Forall_inv H) as Hi. pose proof (Forall_inv_tail H) as Ht. pose proof (Forall_inv A) as Af. pose proof (Forall_inv_tail A) as At.
    pose proof (Forall_inv X) as Xi. pose proof (Forall_inv_tail X) as Xt. cbn [snd fst] in *.
    destruct Xi as [X1 X2]. destruct IH as (I1 & I2 & I3); [assumption..|]. split; [|split].
    - unfold areas. cbn [map Qsum fst snd lower upper]. fold (areas r a b) (areas p a' b').
      rewrite I1. rewrite (shift_area i f g' a b a' b'); [reflexivity|assumption..].
    - constructor; [|assumption]. apply (shifted_halfopen i); assumption.
    - constructor; [|assumption]. cbn [snd]. destruct f; cbn in Af; try contradiction; cbn in Eg; injection Eg as <-; exact I.
  Qed.
End ShiftInt.
