(** Cropping a continuous cdf: the rescaled restriction. *)
Require Import ZArith QArith Qabs Lqa Bool List Arith Lia Sorted.
Require Import Verif.Base Verif.FloatLine Verif.FloatVal Verif.IntervalModel Verif.IntervalSpec Verif.IntervalProofs Verif.IntervalDec
  Verif.NumBase Verif.FunctionModel Verif.FunctionSpec Verif.FunctionProofs Verif.FunctionPlf Verif.FunctionPlf2 Verif.FunctionInt
  Verif.NumericModel Verif.NumericSpec Verif.NumericFit Verif.NumericProb Verif.NumericMerge Verif.NumericMix Verif.NumericClose Verif.NumericCut Verif.NumericCrop.
Import ListNotations.
Open Scope Z_scope.

Lemma chain_nonempty : forall p b, chain (- ORD_INF) p b -> Forall (fun s : cs * fn => cs_isempty (fst s) = false) p.
Proof.
  assert (K : forall p a b, chain a p b -> - ORD_INF <= a -> Forall (fun s : cs * fn => cs_isempty (fst s) = false) p).
  { induction p as [|[i f] p IH]; intros a b C A; [constructor|]. destruct C as (E & L & C). constructor; [|apply (IH _ _ C); lia].
    cbn [fst]. rewrite E. destruct (Z.eqb_spec a (- ORD_INF)) as [->|N]; [|apply half_not_empty; exact L].
    unfold cs_isempty. cbn [lower upper]. destruct (Z.ltb_spec (upper i) (- ORD_INF)); [lia|]. destruct (Z.eqb_spec (- ORD_INF) (upper i)); [lia|].
    change (plus_eps (- ORD_INF)) with (- ORD_INF). rewrite (proj2 (Z.leb_gt _ _)) by lia. reflexivity. }
  intros p b C. apply (K _ _ _ C). lia.
Qed.
Lemma filter_id : forall (p : plf), Forall (fun s : cs * fn => cs_isempty (fst s) = false) p -> filter (fun s : cs * fn => negb (cs_isempty (fst s))) p = p.
Proof. induction p as [|s p IH]; intro F; [reflexivity|]. cbn [filter]. rewrite (Forall_inv F). cbn [negb]. rewrite (IH (Forall_inv_tail F)). reflexivity. Qed.

(** The value of a cdf, 0 at minus infinity. *)
Definition value (F : plf) (x : Z) : Q := if x =? - ORD_INF then 0%Q else match plf_at F x with Some f => height f (dval x) | None => 0%Q end.

Lemma value_spec : forall F lo hi x, affines F -> proper_cdf F lo hi -> - ORD_INF <= x < ORD_INF -> cdf_at F x (value F x).
Proof.
  intros F lo hi x A P B. unfold value. destruct (Z.eqb_spec x (- ORD_INF)) as [->|N]; [left; split; reflexivity|].
  assert (Fx : finite x) by (unfold finite; lia). destruct (pc_range _ _ _ P x Fx) as (y & Y & _). right. right. split; [exact Fx|].
  pose proof Y as Y'. apply plf_is_at in Y'. destruct Y' as (f & Ef & Hf). rewrite Ef. apply (plf_is_of _ _ f _ Ef).
  apply fn_is_height; [|reflexivity]. clear - A Ef. induction F as [|[i g] F IH]; [discriminate Ef|]. cbn [plf_at] in Ef.
  destruct (piece_has i x); [injection Ef as <-; exact (Forall_inv A)|exact (IH (Forall_inv_tail A) Ef)].
Qed.
Lemma run_last : forall p a i f b, run a (p ++ [(i, f)]) b -> upper i = b /\ a <= lower i < b.
Proof.
  induction p as [|[j g] p IH]; intros a i f b R; cbn [app run] in R.
  - destruct R as (E & L & R). split; [exact R|]. rewrite E at 1 2. cbn [lower]. lia.
  - destruct R as (_ & L & R). destruct (IH _ _ _ _ R) as (E & B). split; [exact E|lia].
Qed.
Lemma run_map : forall (h : fn -> fn) p a b, run a p b -> run a (map (fun s : cs * fn => (fst s, h (snd s))) p) b.
Proof. induction p as [|[i f] p IH]; intros a b R; [exact R|]. destruct R as (E & L & R). cbn [map fst snd run]. repeat split; try assumption. apply IH. exact R. Qed.
Lemma shift_affine : forall w f, affine f -> affine (shift w f).
Proof. intros w [|u|m c|? ? ?] A; try contradiction; exact I. Qed.
Lemma joined_shift : forall w p, affines p -> joined p -> joined (map (fun s : cs * fn => (fst s, shift w (snd s))) p).
Proof.
  induction p as [|[i f] p IH]; intros A J; [exact I|]. destruct p as [|[j g] p]; [exact I|]. destruct J as (J1 & J2).
  cbn [map fst snd]. split; [|apply IH; [exact (Forall_inv_tail A)|exact J2]].
  rewrite !height_shift by first [exact (Forall_inv A)|exact (Forall_inv (Forall_inv_tail A))]. rewrite J1. reflexivity.
Qed.

(** ** Closing *)
Lemma close_spec : forall A B u alpha V hi j g out c, grown A alpha V ((j, g) :: out) B -> out <> [] -> affine g ->
  match g with FLin _ _ => lower j + 1 < upper j | _ => True end -> (0 < alpha)%Q -> - ORD_INF <= A < B -> uppermost c = u ->
  ((B <= ORD_INF /\ finite u /\ B = u + 1 /\ minus_eps B = u /\ (V u == alpha)%Q)
   \/ (B = ORD_INF /\ u = ORD_INF /\ finite hi /\ forall x, finite x -> hi <= x -> A <= x -> (V x == alpha)%Q)) ->
  exists r, crop_close c ((j, g) :: out) = Ok r /\ grown A alpha (fun x => if x <? u then V x else alpha) r ORD_INF.
Proof.
  intros A B u alpha V hi j g out c G No Ag Wd Pa HA Eu HB. set (V' := fun x => if x <? u then V x else alpha).
  destruct out as [|[k h] out]; [contradiction|]. destruct (pop _ _ _ _ _ _ _ _ _ G) as (G1 & Ej & Bj & Jh).
  assert (Uj : upper j = B) by (rewrite Ej; reflexivity).
  assert (Ub : B <= ORD_INF /\ lower j <= u /\ A <= u) by (destruct HB as [(Q1 & Q2 & Q3 & _)|(Q1 & Q2 & _)]; lia).
  assert (Fl : finite (lower j)) by (unfold finite; lia).
  assert (G1' : grown A alpha V' ((k, h) :: out) (lower j)).
  { apply (grown_ext _ _ V); [exact G1|]. intros x Lx. unfold V'. destruct (Z.ltb_spec x u); [reflexivity|lia]. }
  assert (Rg : forall x, finite x -> lower j <= x < B -> (height g (dval x) == target A alpha V x)%Q).
  { intros x Fx Bx. apply (gr_repr _ _ _ _ _ G j g x); [left; reflexivity|exact Fx|lia]. }
  pose proof (rev_last _ _ _ _ _ (gr_chain _ _ _ _ _ G1)) as Uk.
  assert (Rise : match g with FLin m _ => (0 < m)%Q /\ finite (lower j) /\ finite (upper j) | _ => True end).
  { pose proof (gr_rise _ _ _ _ _ G) as R. rewrite Forall_forall in R. apply (R (j, g)). apply -> in_rev. left. reflexivity. }
  assert (One : (exists x, finite x /\ lower j <= x < B /\ A <= x /\ (V x == alpha)%Q)).
  { destruct HB as [(Q1 & Q2 & Q3 & Q4 & Q5)|(Q1 & Q2 & Q3 & Q4)].
    - exists u. split; [exact Q2|]. split; [lia|]. split; [lia|exact Q5].
    - exists (Z.max (lower j) (Z.max hi A)). assert (finite (Z.max (lower j) (Z.max hi A))) by (unfold finite in *; lia).
      split; [assumption|]. split; [unfold finite in *; lia|]. split; [lia|]. apply Q4; [assumption|lia|lia]. }
  assert (Cz : forall z, g = FConst z -> (z == 1)%Q).
  { intros z ->. destruct One as (x & Fx & Bx & Ax & Vx). specialize (Rg x Fx Bx). unfold target in Rg. destruct (Z.ltb_spec x A); [lia|].
    rewrite Vx in Rg. unfold height in Rg. cbn [steepness] in Rg. assert (alpha / alpha == 1)%Q by (field; lra). lra. }
  cbn [crop_close]. destruct g as [|z|m c0|? ? ?]; try contradiction.
  - specialize (Cz z eq_refl). cbn [fn_eq]. destruct (Qeqb_spec z 1) as [_|N]; [|contradiction]. cbn [bind].
    rewrite Uk. eexists. split; [reflexivity|]. rewrite Ej. unfold set_lower. cbn [lower upper left right].
    apply push; try assumption; try exact I; try lia.
    intros x Fx Bx. unfold target, V'. destruct (Z.ltb_spec x u) as [L|L].
    + rewrite (Rg x Fx); [reflexivity|]. destruct HB as [(Q1 & Q2 & Q3 & _)|(Q1 & Q2 & _)]; lia.
    + destruct (Z.ltb_spec x A); [lia|]. unfold height. cbn [steepness]. rewrite Cz. field. lra.
  - destruct Rise as (Pm & _ & Fu). rewrite Uj in Fu.
    destruct HB as [(Q1 & Q2 & Q3 & Q4 & Q5)|(Q1 & Q2 & _)]; [|unfold finite in Fu; lia].
    cbn [fn_eq]. unfold Qz. destruct (Qeqb_spec m 0) as [Z|_]; [lra|]. cbn [andb bind].
    rewrite Eu. assert (Cv : cs_contains_value j u = true). { rewrite Ej. apply piece_mem; [exact Q2|lia]. }
    rewrite Cv. unfold set_upper. cbn [upper]. rewrite Uj, Q4. unfold mk_cs. destruct (Z.ltb_spec ORD_INF u); [unfold finite in Q2; lia|]. cbn [bind].
    eexists. split; [reflexivity|].
    assert (Wj : lower j + 1 < B) by (rewrite <- Uj; exact Wd).
    assert (E1 : CS (lower j) u (left j) (right j) = CS (lower j) u INC EXC) by (rewrite Ej; reflexivity). rewrite E1.
    assert (Hu : (height (FLin m c0) (dval u) == 1)%Q).
    { rewrite (Rg u Q2 ltac:(lia)). unfold target. destruct (Z.ltb_spec u A); [lia|]. rewrite Q5. field. lra. }
    apply push; try assumption; try exact I; try (unfold finite in *; lia).
    + apply push; try assumption; try exact I; try lia.
      * split; [exact Pm|split; [exact Q2|right; exact Hu]].
      * intros x Fx Bx. rewrite (Rg x Fx ltac:(lia)). unfold target, V'. destruct (Z.ltb_spec x u); [reflexivity|lia].
    + rewrite Hu. unfold height. cbn [steepness]. ring.
    + intros x Fx Bx. unfold target, V'. destruct (Z.ltb_spec x u); [lia|]. destruct (Z.ltb_spec x A); [lia|]. unfold height. cbn [steepness]. field. lra.
Qed.

(** ** The result *)
Lemma cont_joined : forall F A B c, affines F -> continuous_in F c -> lowermost c = A -> (forall x, x < B -> x <= uppermost c) -> joined_in A B F.
Proof.
  intros F A B c Af H EA EB. assert (K : forall F', (forall pre i f j g post, F' = pre ++ (i, f) :: (j, g) :: post -> lowermost c < upper i <= uppermost c ->
    exists y, fn_is f (dval (upper i)) y /\ fn_is g (dval (upper i)) y) -> affines F' -> joined_in A B F').
  { clear F Af H. induction F' as [|[i f] F IH]; intros H Af; [exact I|]. destruct F as [|[j g] F]; [exact I|]. split.
    - intro Bd. destruct (H [] i f j g F eq_refl ltac:(rewrite EA; split; [lia|apply EB; lia])) as (y & Y1 & Y2).
      apply fn_is_height in Y1; [|exact (Forall_inv Af)]. apply fn_is_height in Y2; [|exact (Forall_inv (Forall_inv_tail Af))]. rewrite Y1, Y2. reflexivity.
    - apply IH; [|exact (Forall_inv_tail Af)]. intros pre i' f' j' g' post E. apply (H ((i, f) :: pre) i' f' j' g' post). rewrite E. reflexivity. }
  apply K; assumption.
Qed.
Lemma tiling_split : forall pre i f j g post, tiling (pre ++ (i, f) :: (j, g) :: post) -> exists y, fn_is f (dval (upper i)) y /\ fn_is g (dval (upper i)) y.
Proof.
  induction pre as [|[k h] pre IH]; intros i f j g post T; cbn [app] in T; [apply tiling_cons in T; apply T|].
  destruct pre as [|[k' h'] pre]; cbn [app] in T; apply tiling_cons in T; destruct T as (_ & _ & _ & T); [apply tiling_cons in T; apply T|].
  apply (IH i f j g post). exact T.
Qed.
Lemma flat_until : forall r a b x f i v, chain a r b -> - ORD_INF <= a -> b <= ORD_INF -> affines r -> joined r -> finite x -> a <= x ->
  (forall k m c, In (k, FLin m c) r -> x <= lower k) -> hd_error r = Some (i, FConst v) -> plf_at r x = Some f -> (height f (dval x) == v)%Q.
Proof.
  induction r as [|[k g] r IH]; intros a b x f i v C A B Af J Fx Ax Nl H E; [discriminate H|]. injection H as -> ->. pose proof C as C0. destruct C as (Ei & L & C).
  pose proof (chain_le _ _ _ C) as Lb. destruct (Z_lt_le_dec x (upper i)) as [X|X].
  - rewrite (chain_at _ _ _ i (FConst v) x C0 ltac:(lia) ltac:(lia) (or_introl eq_refl) Fx) in E; [|rewrite Ei at 1; cbn [lower]; lia]. injection E as <-. unfold height. cbn [steepness]. ring.
  - cbn [plf_at] in E. destruct (piece_has i x) eqn:Hp.
    { injection E as <-. unfold height. cbn [steepness]. ring. }
    destruct r as [|[j h] r]; [discriminate E|]. destruct J as (J1 & J). pose proof C as C1. destruct C1 as (Ej & Lj & C1).
    assert (Lj' : lower j = upper i) by (rewrite Ej; reflexivity).
    destruct (Z.eq_dec x (upper i)) as [Ex|Nx].
    + rewrite (chain_at _ _ _ j h x C ltac:(lia) ltac:(lia) (or_introl eq_refl) Fx) in E by lia. injection E as <-. rewrite Ex, <- J1. unfold height. cbn [steepness]. ring.
    + pose proof (Forall_inv (Forall_inv_tail Af)) as Ah. cbn [snd] in Ah. destruct h as [|w|m c|? ? ?]; try contradiction.
      * rewrite (IH (upper i) b x f j w C ltac:(lia) B (Forall_inv_tail Af) J Fx X); [|intros k' m' c' I; apply (Nl k' m' c'); right; exact I|reflexivity|exact E].
        unfold height in J1. cbn [steepness] in J1. lra.
      * exfalso. specialize (Nl j m c (or_intror (or_introl eq_refl))). lia.
Qed.

(** ... and one of its rising pieces has more than one double, if a value of [F] lies
    strictly between those at the ends. *)
Lemma crop_spec_wide : forall F c ya yu, spread_cdf F -> continuous_in F c -> Forall wf (ivs F) -> wf c -> cs_isempty c = false -> roomy F c ->
  cdf_at F (lowermost c) ya -> cdf_at F (uppermost c) yu -> (ya < yu)%Q ->
  exists q, crop_cdf F c = Ok q /\ spread_cdf q /\ tiling q
    /\ (forall x, finite x -> x < lowermost c -> plf_is q x 0)
    /\ (forall x y, finite x -> lowermost c <= x <= uppermost c -> plf_is F x y -> plf_is q x ((y - ya) / (yu - ya)))
    /\ (forall x, finite x -> uppermost c <= x -> plf_is q x 1)
    /\ (forall x y, finite x -> plf_is q x y -> (0 < y < 1)%Q -> exists i m k, In (i, FLin m k) q /\ lower i + 1 < upper i).
Proof.
  intros F c ya yu SF TF WF Wc Ne Ro Ya Yu Lt. destruct SF as [C Af _ Fst Rise _ (lo & hi & Fh & P)].
  destruct (ends_of c Wc Ne) as (AB & HA & HB & HU). set (A := lowermost c) in *. set (B := beyond c) in *. set (u := uppermost c) in *.
  pose proof ord_facts as O.
  assert (RA : - ORD_INF <= A < ORD_INF /\ B <= ORD_INF /\ (upper c < ORD_INF -> B < ORD_INF /\ minus_eps B = u /\ finite u /\ u = B - 1) /\ A <= u).
  { pose proof Wc as (Hle & Ml & Mh & Hli & Hui & Hfl & Hfr). unfold moderate in Ml, Mh.
    assert (Bb : B <= ORD_INF /\ (upper c < ORD_INF -> B < ORD_INF)) by (destruct HB as [(_ & ->)|(_ & L & ->)]; lia).
    split; [destruct HA as [(_ & L & ->)|[(_ & _ & ->)|(_ & L & ->)]]; lia|]. split; [apply Bb|].
    assert (Au : A <= u) by (destruct HU as [(_ & ->)|(_ & _ & ->)]; lia). split; [|exact Au].
    intro L. split; [apply Bb; exact L|]. destruct HU as [(_ & Eu)|(E & _)]; [|lia]. split; [|split; [unfold finite; destruct HB as [(_ & E)|(_ & _ & E)]; lia|exact Eu]].
    rewrite Eu. destruct HB as [(_ & ->)|(_ & _ & ->)]; [destruct (minus_eps_mod (upper c) Mh) as [(_ & E)|(E & _)]; [exact E|lia]|].
    rewrite minus_plus by lia. lia. }
  destruct RA as (RA & RB & Fin & Au).
  assert (Vs : forall x, - ORD_INF <= x < ORD_INF -> cdf_at F x (value F x)) by (intros x Bx; apply (value_spec F lo hi); assumption).
  assert (Va : (value F A == ya)%Q) by (apply (cdf_at_fun F A); [apply Vs; lia|exact Ya]).
  (* the tests for an unsatisfiable restriction *)
  destruct Fst as (i0 & F' & EF).
  destruct (rev F) as [|[il fl] rF] eqn:ER; [apply (f_equal (@rev _)) in ER; rewrite rev_involutive in ER; subst F; discriminate ER|].
  assert (Il : In (il, fl) F) by (apply in_rev; rewrite ER; left; reflexivity).
  assert (Ul : upper il = ORD_INF) by (apply (rev_last rF (- ORD_INF) il fl); rewrite <- ER, rev_involutive; exact C).
  assert (I0 : In (i0, FConst 0) F) by (rewrite EF; left; reflexivity).
  assert (L0 : lower i0 = - ORD_INF) by (rewrite EF in C; destruct C as (E & _); rewrite E; reflexivity).
  assert (Afn : forall i f, In (i, f) F -> affine f) by (intros i f I; unfold affines in Af; rewrite Forall_forall in Af; exact (Af _ I)).
  assert (Rn : forall i m k, In (i, FLin m k) F -> (0 < m)%Q /\ finite (lower i) /\ finite (upper i)) by (intros i m k I; rewrite Forall_forall in Rise; exact (Rise _ I)).
  assert (Vl : forall q, (height fl q == 1)%Q).
  { apply (proper_last F hi il fl lo); try assumption. destruct fl; try exact I. apply Rn in Il. destruct Il as (_ & _ & Fu). unfold finite in Fu. lia. }
  assert (At : forall i f x, In (i, f) F -> lower i <= x < upper i -> (height f (dval x) == value F x)%Q).
  { intros i f x I Bx. destruct (chain_in _ _ _ _ _ C I) as (B1 & B2 & B3). unfold value. destruct (Z.eqb_spec x (- ORD_INF)) as [->|N].
    - destruct B3 as [B3|B3]; [|lia]. rewrite EF in B3. injection B3 as <- <-. unfold height. cbn [steepness]. ring.
    - rewrite (chain_at F _ _ i f x C ltac:(lia) ltac:(lia) I ltac:(unfold finite; lia) Bx). reflexivity. }
  assert (U1 : upper i0 <= u).
  { destruct (Z_lt_le_dec u (upper i0)) as [L|L]; [|exact L]. exfalso. assert (u < ORD_INF) by (destruct (chain_in _ _ _ _ _ C I0); lia).
    assert (yu == 0)%Q. { apply (cdf_at_fun F u _ _ Yu). apply (cdf_at_wd F u (value F u)); [|apply Vs; lia]. rewrite <- (At i0 (FConst 0) u I0) by lia. unfold height. cbn [steepness]. ring. }
    assert (0 <= ya)%Q. { destruct (cdf_at_ex F lo hi A P ltac:(lia)) as (y & Y & R). rewrite (cdf_at_fun F A _ _ Ya Y). apply R. } lra. }
  assert (U2 : A <= lower il).
  { destruct (Z_lt_le_dec (lower il) A) as [L|L]; [|exact L]. exfalso.
    assert (ya == 1)%Q. { rewrite <- Va, <- (At il fl A Il) by lia. apply Vl. }
    assert (yu <= 1)%Q. { destruct (cdf_at_ex F lo hi u P) as (y & Y & R); [destruct HU as [(L' & _)|(_ & _ & ->)]; [apply Fin in L'; unfold finite in *; lia|lia]|]. rewrite (cdf_at_fun F u _ _ Yu Y). apply R. } lra. }
  (* the pieces inside *)
  assert (JF : joined_in A B F) by (apply (cont_joined F A B c Af TF eq_refl); fold u; destruct HU as [(_ & ->)|(_ & _ & ->)]; intros; lia).
  destruct (crop_run F (- ORD_INF) ORD_INF c C ltac:(lia) Wc Ne (proj2 Ro) B JF) as (p & Ep & Rp & Jp & _ & Inp).
  fold A B in Rp, Inp. replace (Z.max (- ORD_INF) A) with A in Rp by lia. replace (Z.min ORD_INF B) with B in Rp by lia. rewrite (proj2 (Z.ltb_lt A B) AB) in Rp. fold A in Jp. apply (run_joined _ _ _ _ Rp) in Jp; [|lia].
  assert (Ap : affines p). { unfold affines. apply Forall_forall. intros [k f] I. destruct (Inp k f I) as (i & Ii & _). exact (Afn _ _ Ii). }
  assert (Vp : forall k f x, In (k, f) p -> lower k <= x < upper k -> (height f (dval x) == value F x)%Q).
  { intros k f x I Bx. destruct (Inp k f I) as (i & Ii & E1 & E2). apply (At i f x Ii). lia. }
  assert (Sp : Forall sloped p).
  { apply Forall_forall. intros [k f] I. destruct (Inp k f I) as (i & Ii & _). unfold sloped. cbn [snd]. destruct f; try exact Logic.I. apply (Rn _ _ _ Ii). }
  assert (Fp : forall k f, In (k, f) p -> fits B k f).
  { intros k f I. destruct (Inp k f I) as (i & Ii & E1 & E2). destruct (run_in _ _ _ _ _ Rp I) as (_ & K1 & K2 & K3).
    destruct f as [|z|m k0|? ? ?]; try exact Logic.I. destruct (Rn _ _ _ Ii) as (Pm & Fl & Fu). unfold fits.
    assert (Wi : wf i) by (rewrite Forall_forall in WF; apply WF; apply (in_map fst F (i, FLin m k0)); exact Ii).
    repeat split; [exact Pm|unfold finite in *; lia|unfold finite in *; lia|unfold finite in *; lia|unfold finite in *; lia| |].
    - intro L. destruct Ro as (Ro & _). assert (Eu : upper k = upper i) by lia. rewrite E1, Eu. apply (Ro i m k0 Ii). fold A u. destruct HU as [(_ & ->)|(_ & _ & ->)]; lia.
    - destruct (Z_le_gt_dec (upper i) B) as [L|L].
      + replace (upper k) with (upper i) by lia. destruct Wi as (_ & _ & Mi & _). destruct (minus_eps_mod (upper i) Mi) as [(_ & E)|(E & _)]; [exact E|unfold finite in Fu; lia].
      + replace (upper k) with B by lia. destruct HU as [(L' & E)|(_ & E & _)]; [|unfold finite in Fu; lia]. destruct (Fin L') as (_ & -> & _ & ->). reflexivity. }
  assert (Mp : forall k f, In (k, f) p -> upper k < B -> minus_eps (upper k) < upper k).
  { intros k f I L. destruct (Inp k f I) as (i & Ii & E1 & E2). assert (Eu : upper k = upper i) by lia. destruct (run_in _ _ _ _ _ Rp I) as (_ & K1 & K2 & K3).
    assert (Wi : wf i) by (rewrite Forall_forall in WF; apply WF; apply (in_map fst F (i, f)); exact Ii).
    rewrite Eu. destruct Wi as (_ & _ & Mi & _). destruct (minus_eps_mod (upper i) Mi) as [(_ & E)|(E & _)]; lia. }
  destruct p as [|[k0 f0] p']; [cbn [run] in Rp; lia|]. set (p := (k0, f0) :: p') in *.
  assert (K0 : k0 = CS A (upper k0) INC EXC) by (destruct Rp as (E & _); exact E).
  assert (Lk : lowermost k0 = A) by (rewrite K0; reflexivity).
  assert (Ek : lower k0 = A) by (rewrite K0; reflexivity).
  assert (Lu : A < upper k0) by (destruct Rp as (_ & L & _); exact L).
  assert (A0 : affine f0) by exact (Forall_inv Ap).
  assert (Pa : plf_at p A = Some f0).
  { unfold p. cbn [plf_at]. replace (piece_has k0 A) with true; [reflexivity|]. unfold piece_has. symmetry.
    destruct (Z.eq_dec A (- ORD_INF)) as [E|N]; [rewrite Ek, E, Z.eqb_refl; cbn [andb]; rewrite orb_true_r; reflexivity|].
    rewrite K0 at 1. rewrite (proj2 (piece_mem A (upper k0) A ltac:(unfold finite; lia))) by lia. reflexivity. }
  destruct (eval_height f0 (dval A) A0) as (v & Ev & Hv).
  assert (Vv : (v == ya)%Q). { rewrite Hv, (Vp k0 f0 A); [exact Va|left; reflexivity|lia]. }
  set (V := fun x => (value F x - v)%Q). set (q0 := map (fun s : cs * fn => (fst s, shift (- v) (snd s))) p).
  assert (Inq : forall k f, In (k, f) q0 -> exists g, In (k, g) p /\ f = shift (- v) g).
  { intros k f I. apply in_map_iff in I. destruct I as ((k' & g) & E & I). cbn [fst snd] in E. injection E as <- <-. exists g. split; [exact I|reflexivity]. }
  assert (Rq0 : run A q0 B) by (apply run_map; exact Rp).
  assert (Aq0 : affines q0). { unfold affines. apply Forall_forall. intros [k f] I. destruct (Inq k f I) as (g & Ig & ->). apply shift_affine. unfold affines in Ap. rewrite Forall_forall in Ap. exact (Ap _ Ig). }
  assert (Jq0 : joined q0) by (apply joined_shift; assumption).
  assert (Vq0 : forall k f x, In (k, f) q0 -> lower k <= x < upper k -> (height f (dval x) == V x)%Q).
  { intros k f x I Bx. destruct (Inq k f I) as (g & Ig & ->). unfold V. rewrite height_shift by (unfold affines in Ap; rewrite Forall_forall in Ap; exact (Ap _ Ig)).
    rewrite (Vp k g x Ig Bx). ring. }
  assert (Fq0 : forall k f, In (k, f) q0 -> fits B k f).
  { intros k f I. destruct (Inq k f I) as (g & Ig & ->). specialize (Fp k g Ig). destruct g; exact Fp. }
  assert (Es : plf_simplify q0 = simp_loop (Some (k0, shift (- v) f0)) (map (fun s : cs * fn => (fst s, shift (- v) (snd s))) p')).
  { unfold plf_simplify. rewrite (cmp_sort_run q0 A B Rq0); [|intros k f I; destruct (Inq k f I) as (g & Ig & _); exact (Mp k g Ig)]. cbn [bind].
    unfold q0, p. cbn [map fst snd simp_loop]. rewrite K0 at 1. rewrite half_not_empty by exact Lu. reflexivity. }
  destruct (simp_run (map (fun s : cs * fn => (fst s, shift (- v) (snd s))) p') k0 (shift (- v) f0) A B V (fits B) Rq0 Aq0 Jq0 Vq0 Fq0) as (k1 & r & Er & Rq & Aq & Jq & Vq & Fq).
  { intros k f j g Hk Hj E Lk' Lb. destruct f as [|z|m k2|? ? ?]; try exact Logic.I. destruct Hk as (H1 & H2 & H3 & H4 & H5). unfold fits. cbn [lower upper].
    destruct g as [|z'|m' k2'|? ? ?]; cbn [fn_eq] in E; try discriminate E.
    - injection E as E. apply andb_true_iff in E. destruct E as (E & _). unfold Qz in E. apply Qeq_bool_iff in E. lra.
    - destruct Hj as (J1 & J2 & J3 & J4 & J5). repeat split; try assumption; try (apply H2); try (apply J3); lia. }
  set (q := (k1, shift (- v) f0) :: r) in *.
  assert (Hq : exists pl kl gl, q = pl ++ [(kl, gl)]).
  { exists (removelast q), (fst (last q (k1, FUndef))), (snd (last q (k1, FUndef))). rewrite <- surjective_pairing. apply app_removelast_last. discriminate. }
  destruct Hq as (pl & kl & gl & El). pose proof Rq as Rl. rewrite El in Rl. apply run_last in Rl. destruct Rl as (Ukl & Bkl).
  assert (Ikl : In (kl, gl) q) by (rewrite El; apply in_or_app; right; left; reflexivity).
  assert (Agl : affine gl) by (unfold affines in Aq; rewrite Forall_forall in Aq; exact (Aq _ Ikl)).
  destruct (eval_height gl (dval u) Agl) as (alpha & Ea & Ha).
  assert (K1 : lower k1 = A) by (destruct Rq as (E & _); rewrite E; reflexivity).
  assert (Cases : (B <= ORD_INF /\ finite u /\ B = u + 1 /\ minus_eps B = u /\ (V u == alpha)%Q /\ (alpha == yu - ya)%Q)
    \/ (B = ORD_INF /\ u = ORD_INF /\ (forall x, finite x -> hi <= x -> A <= x -> (V x == alpha)%Q) /\ (alpha == yu - ya)%Q)).
  { destruct HU as [(L & Eu)|(_ & EB & Eu)].
    - destruct (Fin L) as (_ & Em & Fu & _). left. split; [lia|]. split; [exact Fu|]. split; [lia|]. split; [exact Em|].
      assert (E : (V u == alpha)%Q) by (rewrite Ha; symmetry; apply (Vq kl gl u Ikl); lia). split; [exact E|]. rewrite <- E. unfold V. rewrite Vv.
      rewrite (cdf_at_fun F u _ _ (Vs u ltac:(unfold finite in Fu; lia)) Yu). reflexivity.
    - right. assert (Y1 : (yu == 1)%Q). { apply (cdf_at_fun F u _ _ Yu). right. left. split; [exact Eu|reflexivity]. }
      assert (V1 : forall x, finite x -> hi <= x -> A <= x -> (V x == 1 - ya)%Q).
      { intros x Fx Lx _. unfold V. rewrite Vv. rewrite (cdf_at_fun F x (value F x) 1); [reflexivity|apply Vs; unfold finite in Fx; lia|].
        right. right. split; [exact Fx|apply (pc_right _ _ _ P); assumption]. }
      assert (Al : (alpha == 1 - ya)%Q).
      { set (x := Z.max (lower kl) (Z.max hi A)). assert (Fx : finite x) by (unfold finite, x in *; lia).
        rewrite <- (V1 x Fx ltac:(lia) ltac:(lia)), <- (Vq kl gl x Ikl) by (unfold finite in Fx; lia). rewrite Ha.
        destruct gl as [|z|m k2|? ? ?]; try contradiction; [unfold height; cbn [steepness]; ring|].
        destruct (Fq _ _ Ikl) as (_ & _ & Fu & _). unfold finite in Fu. lia. }
      split; [exact EB|]. split; [exact Eu|]. split; [intros x X1 X2 X3; rewrite Al; apply V1; assumption|]. rewrite Al, Y1. reflexivity. }
  assert (Ad : (alpha == yu - ya)%Q) by (destruct Cases as [(_ & _ & _ & _ & _ & E)|(_ & _ & _ & E)]; exact E).
  assert (Pal : (0 < alpha)%Q) by lra.
  assert (V0 : (V A == 0)%Q) by (unfold V; rewrite Va, Vv; ring).
  destruct (start A B alpha V Pal q A (shift (- v) f0) Rq Aq Jq Fq Vq) as (j' & g' & out' & Eo & G & No & Ag' & Wd); try lia.
  { apply shift_affine. exact A0. }
  { left. reflexivity. }
  { unfold q. cbn [hdfn]. rewrite (Vq k1 (shift (- v) f0) A); [exact V0|left; reflexivity|]. destruct Rq as (_ & L & _). lia. }
  { intros x _ L. unfold target. destruct (Z.ltb_spec x A); [reflexivity|lia]. }
  { destruct Cases as [(_ & Fu & EB & _ & E & _)|(EB & _ & E & _)].
    - exists u. split; [lia|]. rewrite E. exact Pal.
    - exists (Z.max hi A). assert (finite (Z.max hi A)) by (unfold finite in *; lia). split; [unfold finite in *; lia|]. rewrite E; [exact Pal|assumption|lia|lia]. }
  destruct (close_spec A B u alpha V hi j' g' out' c G No Ag' Wd Pal ltac:(lia) eq_refl) as (rr & Ec & Gr).
  { destruct Cases as [(Q1 & Q2 & Q3 & Q4 & Q5 & _)|(Q1 & Q2 & Q3 & _)]; [left; auto 10|right; auto 10]. }
  set (V' := fun x => if x <? u then V x else alpha) in *.
  set (hi' := if u <? ORD_INF then u else Z.max hi A).
  assert (Mo : forall x y, A <= x -> x <= y -> finite x -> finite y -> (0 <= V x <= V y)%Q).
  { intros x y L1 L2 Fx Fy. unfold finite in Fx, Fy. unfold V. rewrite Vv. pose proof (cdf_at_mono F lo hi A x ya (value F x) P L1 Ya (Vs x ltac:(lia))) as M1.
    pose proof (cdf_at_mono F lo hi x y _ _ P L2 (Vs x ltac:(lia)) (Vs y ltac:(lia))) as M2. lra. }
  assert (Top : forall x, A <= x <= u -> finite x -> (0 <= V x <= alpha)%Q).
  { intros x Bx Fx. split; [apply (Mo x x); try lia; assumption|]. rewrite Ad. unfold V. rewrite Vv.
    pose proof (cdf_at_mono F lo hi x u (value F x) yu P ltac:(lia) (Vs x ltac:(unfold finite in Fx; lia)) Yu). lra. }
  assert (Fh' : finite hi').
  { unfold hi'. destruct (Z.ltb_spec u ORD_INF); [|unfold finite in *; lia]. destruct Cases as [(_ & Fu & _)|(_ & E & _)]; [exact Fu|lia]. }
  destruct (grown_cdf A u alpha V' rr hi' Gr Pal ltac:(lia) Fh') as (S1 & S2 & S3); [| |exact Au|].
  { intros x Fx Lx. unfold hi', V' in *. destruct (Z.ltb_spec u ORD_INF); [split; [lia|]; destruct (Z.ltb_spec x u); [lia|reflexivity]|].
    split; [lia|]. destruct (Z.ltb_spec x u); [|reflexivity]. destruct Cases as [(_ & Fu & _)|(_ & _ & E & _)]; [unfold finite in Fu; lia|]. apply E; [exact Fx|lia|lia]. }
  { intros x y L1 L2 Fx Fy. unfold V'. destruct (Z.ltb_spec x u), (Z.ltb_spec y u); try lia.
    - apply Mo; assumption.
    - apply Top; [lia|exact Fx].
    - lra. }
  exists (rev rr). split; [|split; [exact S1|split; [exact S2|]]].
  - unfold crop_cdf.
    pose proof ER as ER2. rewrite EF in ER2. rewrite EF. cbv beta iota. rewrite ER2. fold A u. destruct (Z.ltb_spec u (upper i0)); [lia|]. destruct (Z.ltb_spec (lower il) A); [lia|]. cbn [orb].
    rewrite <- EF, Ep. cbn [bind]. unfold p at 1. cbv beta iota. unfold cdf_num. rewrite Lk. fold p. rewrite Pa, Ev. cbn [bind].
    rewrite (add_const p (- v)) by assumption. cbn [bind]. fold q0. rewrite Es, Er. cbn [bind]. fold q.
    assert (Rv : rev q = (kl, gl) :: rev pl) by (rewrite El, rev_app_distr; reflexivity). unfold q at 1. cbv beta iota. fold q. rewrite Rv. cbv beta iota.
    unfold mk_cs at 1. rewrite K1. destruct (Z.ltb_spec A (- ORD_INF)); [lia|]. cbn [bind]. rewrite Ea. cbn [bind]. fold q. rewrite Eo. cbn [bind]. rewrite Ec. cbn [bind].
    rewrite filter_id by (apply (chain_nonempty _ ORD_INF); exact (sp_chain _ S1)).
    pose proof (sp_len _ S1). rewrite (proj2 (Nat.ltb_lt 1 (length (rev rr)))) by lia. reflexivity.
  - assert (Hu : forall x, finite x -> u <= x -> plf_is (rev rr) x 1).
    { intros x Fx L. apply (plf_is_wd _ _ _ 1%Q) with (2 := S3 x Fx). unfold target, V'. destruct (Z.ltb_spec x A); [lia|]. destruct (Z.ltb_spec x u); [lia|]. field. lra. }
    assert (Wide : forall x y, finite x -> plf_is (rev rr) x y -> (0 < y < 1)%Q -> exists i m k, In (i, FLin m k) (rev rr) /\ lower i + 1 < upper i).
    { intros x y Fx Y (Y0 & Y1). pose proof (sp_chain _ S1) as Cr. pose proof (sp_affine _ S1) as Ar. pose proof (tiling_joined _ Ar S2) as Jr.
      assert (D : (exists k m k', In (k, FLin m k') (rev rr) /\ lower k < x) \/ forall k m k', In (k, FLin m k') (rev rr) -> x <= lower k).
      { clear. induction (rev rr) as [|[k f] r IH]; [right; intros k m k' []|]. destruct IH as [(k1 & m1 & c1 & I1 & L1)|IH]; [left; exists k1, m1, c1; split; [right; exact I1|exact L1]|].
        destruct f as [|z|m k2|? ? ?]; try (right; intros k1 m1 c1 [E|E]; [discriminate E|exact (IH _ _ _ E)]).
        destruct (Z_lt_le_dec (lower k) x) as [L|L]; [left; exists k, m, k2; split; [left; reflexivity|exact L]|]. right. intros k1 m1 c1 [E|E]; [injection E as <- _ _; exact L|exact (IH _ _ _ E)]. }
      pose proof Y as Yx. apply plf_is_at in Y. destruct Y as (f & Ef & Hf). pose proof (plf_at_affine _ x f Ar Ef) as Aff. apply fn_is_height in Hf; [|exact Aff].
      destruct D as [(k & m & k' & I & L)|D].
      - destruct (gr_wide _ _ _ _ _ Gr k m k') as [W|W]; [apply in_rev; exact I|exists k, m, k'; split; assumption|].
        destruct (Z_lt_le_dec (lower k + 1) (upper k)) as [W'|W']; [exists k, m, k'; split; assumption|]. exfalso.
        destruct (chain_in _ _ _ _ _ Cr I) as (B1 & B2 & B3). pose proof (sp_rise _ S1) as Rr. rewrite Forall_forall in Rr. destruct (Rr _ I) as (_ & _ & Fu). cbn [fst] in Fu.
        destruct (sp_proper _ S1) as (lo' & hi2 & _ & Pr').
        assert (V1 : plf_is (rev rr) (upper k) 1).
        { destruct (in_split _ _ I) as (pre & post & Eq). destruct post as [|[j h] post].
          { exfalso. rewrite Eq in Cr. apply chain_app_inv in Cr. destruct Cr as (b0 & _ & _ & _ & Ce). cbn [chain] in Ce. unfold finite in Fu. lia. }
          pose proof S2 as T0. rewrite Eq in T0. destruct (tiling_split _ _ _ _ _ _ T0) as (y0 & Z1 & Z2).
          assert (Ij : In (j, h) (rev rr)) by (rewrite Eq; apply in_or_app; right; right; left; reflexivity).
          assert (Ah : affine h) by (unfold affines in Ar; rewrite Forall_forall in Ar; exact (Ar _ Ij)).
          apply fn_is_height in Z1; [|exact Logic.I]. apply plf_is_at. exists h. split.
          - apply (chain_at _ (- ORD_INF) ORD_INF j h (upper k) Cr ltac:(lia) ltac:(lia) Ij Fu). rewrite Eq in Cr. apply chain_app_inv in Cr. destruct Cr as (b0 & _ & Ei & Li & Ej & Lj & _). rewrite Ej. cbn [lower upper]. lia.
          - apply fn_is_height; [exact Ah|]. apply fn_is_height in Z2; [|exact Ah]. lra. }
        assert (Lu' : upper k <= x) by lia. pose proof (pc_mono _ _ _ Pr' (upper k) x 1 y Fu Fx Lu' V1 Yx). lra.
      - exfalso. destruct (sp_first _ S1) as (i1 & r1 & E1). pose proof (flat_until (rev rr) (- ORD_INF) ORD_INF x f i1 0%Q Cr ltac:(lia) ltac:(lia) Ar Jr Fx ltac:(unfold finite in Fx; lia) D ltac:(rewrite E1; reflexivity) Ef). lra. }
    split; [|split; [|split; [exact Hu|exact Wide]]].
    + intros x Fx L. apply (plf_is_wd _ _ _ 0%Q) with (2 := S3 x Fx). unfold target. destruct (Z.ltb_spec x A); [reflexivity|lia].
    + intros x y Fx Bx Y. assert (Y' : (value F x == y)%Q). { apply (cdf_at_fun F x); [apply Vs; unfold finite in Fx; lia|]. right. right. split; assumption. }
      destruct (Z.eq_dec x u) as [->|N].
      * apply (plf_is_wd _ _ 1%Q); [|apply Hu; [exact Fx|lia]]. assert (y == yu)%Q as ->.
        { apply (cdf_at_fun F u); [right; right; split; assumption|exact Yu]. } field. lra.
      * apply (plf_is_wd _ _ _ ((y - ya) / (yu - ya))) with (2 := S3 x Fx). unfold target, V'. destruct (Z.ltb_spec x A); [lia|]. destruct (Z.ltb_spec x u); [|lia].
        unfold V. rewrite Y', Vv, Ad. reflexivity.
Qed.
Lemma crop_spec : forall F c ya yu, spread_cdf F -> continuous_in F c -> Forall wf (ivs F) -> wf c -> cs_isempty c = false -> roomy F c ->
  cdf_at F (lowermost c) ya -> cdf_at F (uppermost c) yu -> (ya < yu)%Q ->
  exists q, crop_cdf F c = Ok q /\ spread_cdf q /\ tiling q
    /\ (forall x, finite x -> x < lowermost c -> plf_is q x 0)
    /\ (forall x y, finite x -> lowermost c <= x <= uppermost c -> plf_is F x y -> plf_is q x ((y - ya) / (yu - ya)))
    /\ (forall x, finite x -> uppermost c <= x -> plf_is q x 1).
Proof.
  intros F c ya yu H1 H2 H3 H4 H5 H6 H7 H8 H9. destruct (crop_spec_wide F c ya yu H1 H2 H3 H4 H5 H6 H7 H8 H9) as (q & Q1 & Q2 & Q3 & Q4 & Q5 & Q6 & _). exists q. exact (conj Q1 (conj Q2 (conj Q3 (conj Q4 (conj Q5 Q6))))).
Qed.
