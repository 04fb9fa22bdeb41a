(** Cropping a continuous cdf. *)
Require Import ZArith QArith Qabs Lqa Bool List Arith Lia Sorted.
Require Import Verif.Base Verif.FloatLine Verif.FloatVal Verif.IntervalModel Verif.IntervalSpec Verif.IntervalProofs Verif.IntervalDec
  Verif.NumBase Verif.FunctionModel Verif.FunctionSpec Verif.FunctionProofs Verif.FunctionPlf Verif.FunctionPlf2 Verif.FunctionInt
  Verif.NumericModel Verif.NumericSpec Verif.NumericFit Verif.NumericProb Verif.NumericMerge Verif.NumericMix Verif.NumericClose Verif.NumericCut.
Import ListNotations.
Open Scope Z_scope.

(** ** Runs *)
Lemma run_le : forall p a b, run a p b -> a <= b.
Proof. induction p as [|[i f] p IH]; cbn [run]; intros a b R; [lia|]. destruct R as (_ & L & R). apply IH in R. lia. Qed.
Lemma run_in : forall p a b i f, run a p b -> In (i, f) p -> i = CS (lower i) (upper i) INC EXC /\ a <= lower i /\ lower i < upper i /\ upper i <= b.
Proof.
  induction p as [|[j g] p IH]; intros a b i f R I; [destruct I|]. destruct R as (E & L & R). destruct I as [I|I].
  - injection I as <- <-. apply run_le in R. rewrite E at 1 2 4 5. cbn [lower upper]. rewrite E at 2. cbn [lower upper]. rewrite E at 2. cbn. repeat split; lia.
  - destruct (IH _ _ _ _ R I) as (A & B & C & D). repeat split; try assumption; lia.
Qed.
Lemma piece_mem : forall a b x, finite x -> cs_contains_value (CS a b INC EXC) x = true <-> a <= x < b.
Proof. intros a b x F. rewrite contains_value_spec by exact F. unfold cs_mem. cbn [lower upper left right]. tauto. Qed.
Lemma run_at : forall p a b i f x, run a p b -> In (i, f) p -> finite x -> lower i <= x < upper i -> plf_at p x = Some f.
Proof.
  induction p as [|[j g] p IH]; intros a b i f x R I F L; [destruct I|]. pose proof R as R'. destruct R' as (E & Lj & R').
  rewrite plf_at_cons by exact F. rewrite E. destruct I as [I|I].
  - injection I as -> ->. rewrite E in L. cbn [lower upper] in L. rewrite (proj2 (piece_mem a (upper i) x F)); [reflexivity|lia].
  - destruct (run_in _ _ _ _ _ R' I) as (_ & K & _). destruct (cs_contains_value (CS a (upper j) INC EXC) x) eqn:C.
    + apply piece_mem in C; [lia|exact F].
    + exact (IH _ _ _ _ _ R' I F L).
Qed.

Lemma eval_height : forall f q, affine f -> exists v, eval_num f q = Ok v /\ (v == height f q)%Q.
Proof.
  intros [|u|m c|? ? ?] q A; try contradiction; cbn [eval_num fn_eval height steepness]; unfold eval_num, height; cbn [fn_eval steepness]; eexists; (split; [reflexivity|]); ring.
Qed.

(** Neighbouring pieces agree at the common bounds between [s] and [t]. *)
Fixpoint joined_in (s t : Z) (p : plf) : Prop :=
  match p with
  | (i, f) :: ((j, g) :: _) as r => (s < upper i < t -> (height f (dval (upper i)) == height g (dval (upper i)))%Q) /\ joined_in s t r
  | _ => True
  end.
Lemma run_joined : forall p a b s, run a p b -> joined_in s b p -> s <= a -> joined p.
Proof.
  induction p as [|[i f] p IH]; intros a b s R J L; [exact I|]. destruct R as (_ & La & R). destruct p as [|[j g] p]; [exact I|]. destruct J as (J1 & J2).
  split; [|apply (IH _ _ s R J2); lia]. apply J1. destruct R as (_ & Lj & R). apply run_le in R. lia.
Qed.

(** ** The pieces inside the interval *)
Definition hdfn (p : plf) : fn := match p with (_, f) :: _ => f | [] => FUndef end.
Lemma crop_run : forall F s e c, chain s F e -> - ORD_INF <= s -> wf c -> cs_isempty c = false ->
  (forall i f, In (i, f) F -> left c = EXC -> lower c = - ORD_INF \/ lower c + 1 <> upper i) -> forall t, joined_in (lowermost c) t F ->
  exists p, plf_crop F c = Ok p
    /\ (if Z.max s (lowermost c) <? Z.min e (beyond c) then run (Z.max s (lowermost c)) p (Z.min e (beyond c)) else p = [])
    /\ joined_in (lowermost c) t p /\ (lowermost c <= s < beyond c -> hdfn p = hdfn F)
    /\ (forall k f, In (k, f) p -> exists i, In (i, f) F /\ lower k = Z.max (lower i) (lowermost c) /\ upper k = Z.min (upper i) (beyond c)).
Proof.
  intros F. induction F as [|[i f] F IH]; intros s e c C Hs W Ne K t J.
  { exists []. cbn [plf_crop chain] in *. subst e. split; [reflexivity|]. destruct (Z.ltb_spec (Z.max s (lowermost c)) (Z.min s (beyond c))); [lia|].
    repeat split. intros k f []. }
  destruct (ends_of c W Ne) as (AB & _). destruct C as (E & L & C).
  assert (K1 : left c = EXC -> lower c = - ORD_INF \/ lower c + 1 <> upper i) by (apply (K i f); left; reflexivity).
  destruct (inter_piece s (upper i) c Hs L W Ne K1) as (X & Y). cbv zeta in X, Y. rewrite <- E in X, Y.
  destruct (IH (upper i) e c C ltac:(lia) W Ne) with (t := t) as (p & Ep & R & Jp & H & In').
  { intros k g I. apply (K k g). right. exact I. }
  { destruct F as [|[j g] F]; [exact I|]. destruct J as (_ & J). exact J. }
  assert (Le : upper i <= e) by (apply chain_le in C; exact C).
  cbn [plf_crop]. rewrite Ep. destruct (cs_intersects i c) eqn:Ic.
  - rewrite (Y eq_refl). cbn [bind]. eexists. split; [reflexivity|]. symmetry in X. apply Z.ltb_lt in X.
    destruct (Z.ltb_spec (Z.max s (lowermost c)) (Z.min e (beyond c))) as [_|]; [|lia]. cbn [run upper]. split; [|split; [|split]].
    + split; [reflexivity|]. split; [exact X|]. destruct (Z.ltb_spec (Z.max (upper i) (lowermost c)) (Z.min e (beyond c))) as [Q|Q].
      * replace (Z.min (upper i) (beyond c)) with (Z.max (upper i) (lowermost c)) by lia. exact R.
      * subst p. cbn [run]. lia.
    + destruct p as [|[k g] p]; [exact I|]. destruct (Z.ltb_spec (Z.max (upper i) (lowermost c)) (Z.min e (beyond c))) as [Q|Q]; [|discriminate R].
      assert (B : lowermost c <= upper i < beyond c) by lia. specialize (H B). destruct F as [|[j g'] F]; [cbn [chain] in C; lia|].
      cbn [hdfn] in H. subst g'. destruct J as (J & _). split; [|exact Jp]. cbn [upper].
      replace (Z.min (upper i) (beyond c)) with (upper i) by lia. exact J.
    + intros _. reflexivity.
    + intros k g [I|I]; [|destruct (In' k g I) as (j & Ij & A); exists j; split; [right; exact Ij|exact A]].
      injection I as <- <-. exists i. split; [left; reflexivity|]. assert (lower i = s) as -> by (rewrite E; reflexivity). cbn [lower upper]. auto.
  - exists p. split; [reflexivity|]. symmetry in X. apply Z.ltb_ge in X. split; [|split; [exact Jp|split]].
    + destruct (Z.ltb_spec (Z.max s (lowermost c)) (Z.min e (beyond c))) as [Q|Q], (Z.ltb_spec (Z.max (upper i) (lowermost c)) (Z.min e (beyond c))) as [Q'|Q']; try lia; [|exact R].
      replace (Z.max s (lowermost c)) with (Z.max (upper i) (lowermost c)) by lia. exact R.
    + intro B. lia.
    + intros k g I. destruct (In' k g I) as (j & Ij & A). exists j. split; [right; exact Ij|exact A].
Qed.

(** ** Subtracting a constant *)
Definition shift (w : Q) (f : fn) : fn := match f with FConst a => FConst (a + w) | FLin m c => FLin m (c + w) | _ => f end.
Definition sloped (s : cs * fn) : Prop := match snd s with FLin m _ => (0 < m)%Q | _ => True end.
Lemma add_const : forall p w, affines p -> Forall sloped p -> plf_add_fn p (FConst w) = Ok (map (fun s : cs * fn => (fst s, shift w (snd s))) p).
Proof.
  intros p w A S. unfold plf_add_fn, plf_map. induction p as [|[i f] p IH]; [reflexivity|]. cbn [mapM map fst snd].
  pose proof (Forall_inv A) as Af. cbn [snd] in Af.
  rewrite (IH (Forall_inv_tail A) (Forall_inv_tail S)). apply Forall_inv in S. unfold sloped in S. cbn [snd] in S. destruct f as [|u|m c|? ? ?]; try contradiction; [reflexivity|].
  unfold op_add, lift_op. cbn [fn_add bind fn_simplify shift]. unfold Qz. destruct (Qeqb_spec m 0) as [E|_]; [lra|]. reflexivity.
Qed.
Lemma height_shift : forall w f q, affine f -> (height (shift w f) q == height f q + w)%Q.
Proof. intros w [|u|m c|? ? ?] q A; try contradiction; unfold height; cbn [shift steepness]; ring. Qed.

(** ** Simplifying *)
Lemma cmp_sort_run : forall p a b, run a p b -> (forall k f, In (k, f) p -> upper k < b -> minus_eps (upper k) < upper k) -> cmp_sort p = Ok p.
Proof.
  induction p as [|[i f] p IH]; intros a b R M; [reflexivity|]. destruct R as (E & L & R). cbn [cmp_sort].
  rewrite (IH _ _ R) by (intros k g I; apply (M k g); right; exact I). cbn [bind].
  destruct p as [|[j g] p]; [reflexivity|]. cbn [cmp_insert fst]. destruct R as (E' & L' & R). apply run_le in R.
  unfold cs_comparator. rewrite E, E'. unfold uppermost, lowermost. cbn [lower upper left right].
  specialize (M i f (or_introl eq_refl) ltac:(lia)). rewrite (proj2 (Z.ltb_lt _ _) M). reflexivity.
Qed.
Lemma fn_eq_height : forall f g, affine f -> affine g -> fn_eq f g = Ok true -> forall q, (height f q == height g q)%Q.
Proof.
  intros f g A B E q. destruct f as [|u|m c|? ? ?], g as [|u'|m' c'|? ? ?]; try contradiction; unfold height; cbn [fn_eq steepness] in *; injection E as E.
  - apply Qeq_bool_iff in E. rewrite E. reflexivity.
  - apply andb_true_iff in E. destruct E as (E1 & E2). unfold Qz in E1. apply Qeq_bool_iff in E1, E2. rewrite E1, E2. reflexivity.
  - apply andb_true_iff in E. destruct E as (E1 & E2). unfold Qz in E1. apply Qeq_bool_iff in E1, E2. rewrite E1, E2. reflexivity.
  - apply andb_true_iff in E. destruct E as (E1 & E2). apply Qeq_bool_iff in E1, E2. rewrite E1, E2. reflexivity.
Qed.

Lemma simp_run : forall segs i0 f0 a b (V : Z -> Q) (P : cs -> fn -> Prop), run a ((i0, f0) :: segs) b -> affines ((i0, f0) :: segs) -> joined ((i0, f0) :: segs) ->
  (forall k f x, In (k, f) ((i0, f0) :: segs) -> lower k <= x < upper k -> (height f (dval x) == V x)%Q) ->
  (forall k f, In (k, f) ((i0, f0) :: segs) -> P k f) ->
  (forall k f j g, P k f -> P j g -> fn_eq g f = Ok true -> lower k < upper k < upper j -> upper j <= b -> P (CS (lower k) (upper j) INC EXC) f) ->
  exists i r, simp_loop (Some (i0, f0)) segs = Ok ((i, f0) :: r) /\ run a ((i, f0) :: r) b /\ affines ((i, f0) :: r) /\ joined ((i, f0) :: r)
    /\ (forall k f x, In (k, f) ((i, f0) :: r) -> lower k <= x < upper k -> (height f (dval x) == V x)%Q)
    /\ (forall k f, In (k, f) ((i, f0) :: r) -> P k f).
Proof.
  induction segs as [|[j g] segs IH]; intros i0 f0 a b V P R A J H HP Step.
  { exists i0, []. cbn [simp_loop]. auto 10. }
  destruct R as (E & L & E' & L' & R). cbn [simp_loop].
  assert (Ne : cs_isempty j = false).
  { rewrite E'. unfold cs_isempty. cbn [lower upper]. destruct (Z.ltb_spec (upper j) (upper i0)); [lia|]. destruct (Z.eqb_spec (upper i0) (upper j)); [lia|].
    unfold itype. cbn [left right flag_val]. rewrite andb_false_r. reflexivity. }
  rewrite Ne.
  assert (Ct : cs_contiguous j i0 = true).
  { unfold cs_contiguous. rewrite E'. cbn [lower]. rewrite Z.eqb_refl. rewrite E. reflexivity. }
  rewrite Ct. inversion A as [|? ? Af A1]; subst. inversion A1 as [|? ? Ag A2]; subst. cbn [snd] in Af, Ag.
  destruct J as (J0 & J).
  destruct (fn_eq_affine_ok g f0 Ag Af) as [e Ee]. rewrite Ee. cbn [bind]. destruct e.
  - pose proof (fn_eq_height g f0 Ag Af Ee) as Hh.
    destruct (IH (CS (lower i0) (upper j) (left i0) (right j)) f0 a b V P) as (i & r & Er & K); [| | | | |exact Step|].
    + rewrite E, E'. cbn [lower upper left right run]. split; [reflexivity|]. split; [lia|exact R].
    + constructor; [exact Af|exact A2].
    + destruct segs as [|[k h] segs]; [exact I|]. destruct J as (J1 & J). split; [|exact J]. cbn [upper]. rewrite <- Hh. exact J1.
    + intros k f x [I|I] B.
      * injection I as <- <-. cbn [lower upper] in B. destruct (Z_lt_le_dec x (upper i0)) as [B'|B'].
        -- apply (H i0 f0); [left; reflexivity|lia].
        -- rewrite <- Hh. apply (H j g); [right; left; reflexivity|]. rewrite E' at 1. cbn [lower]. lia.
      * apply (H k f); [right; right; exact I|exact B].
    + intros k f [I|I]; [|apply HP; right; right; exact I]. injection I as <- <-.
      replace (CS (lower i0) (upper j) (left i0) (right j)) with (CS (lower i0) (upper j) INC EXC) by (f_equal; [rewrite E|rewrite E']; reflexivity).
      apply (Step i0 f0 j g); [apply HP; left; reflexivity|apply HP; right; left; reflexivity|exact Ee| |apply run_le in R; exact R]. rewrite E at 1. cbn [lower]. lia.
    + exists i, r. split; [exact Er|exact K].
  - destruct (IH j g (upper i0) b V P) as (i & r & Er & Rr & Ar & Jr & Hr & Pr); [| | | | |exact Step|].
    + split; [exact E'|]. split; [exact L'|exact R].
    + exact A1.
    + exact J.
    + intros k f x I. apply H. right. exact I.
    + intros k f I. apply HP. right. exact I.
    + rewrite Er. cbn [bind]. exists i0, ((i, g) :: r). split; [reflexivity|]. split; [split; [exact E|split; [exact L|exact Rr]]|].
      split; [constructor; [exact Af|exact Ar]|]. split; [split; [exact J0|exact Jr]|]. split.
      * intros k f x [I|I] B; [apply (H k f); [left; exact I|exact B]|apply (Hr k f); [exact I|exact B]].
      * intros k f [I|I]; [apply HP; left; exact I|apply Pr; exact I].
Qed.

(** ** Building the new cdf *)
Lemma size_one : forall l t, l < t -> cs_size (CS l t INC EXC) = if l + 1 =? t then Some 1 else None.
Proof.
  intros l t L. unfold cs_size, cs_isempty. cbn [lower upper]. destruct (Z.ltb_spec t l); [lia|]. destruct (Z.eqb_spec l t); [lia|].
  unfold itype. cbn [left right flag_val]. rewrite andb_false_r. cbn [orb]. destruct (Z.ltb_spec l t); [|lia]. rewrite andb_true_r. reflexivity.
Qed.
Lemma rev_last : forall (p : plf) a i f b, chain a (rev ((i, f) :: p)) b -> upper i = b.
Proof. intros p a i f b C. cbn [rev] in C. apply chain_app_inv in C. destruct C as (u & _ & C). cbn [chain] in C. apply C. Qed.
Lemma joined_app : forall p i f k h, joined (p ++ [(i, f)]) -> (height f (dval (upper i)) == height h (dval (upper i)))%Q -> joined (p ++ [(i, f); (k, h)]).
Proof.
  induction p as [|[j g] p IH]; intros i f k h J E; [split; [exact E|exact I]|]. destruct p as [|[j' g'] p].
  - destruct J as (J & _). split; [exact J|]. split; [exact E|exact I].
  - destruct J as (J & J'). split; [exact J|]. exact (IH i f k h J' E).
Qed.
Lemma joined_rev : forall p i f k h, joined (rev ((i, f) :: p)) -> (height f (dval (upper i)) == height h (dval (upper i)))%Q -> joined (rev ((k, h) :: (i, f) :: p)).
Proof. intros p i f k h J E. cbn [rev] in *. rewrite <- app_assoc. apply joined_app; assumption. Qed.

Definition fits (b : Z) (k : cs) (f : fn) : Prop :=
  match f with
  | FLin m _ => (0 < m)%Q /\ finite (lower k) /\ finite (upper k) /\ (upper k < b -> lower k + 1 < upper k) /\ minus_eps (upper k) = upper k - 1
  | _ => True
  end.

Section Grow.
Variables (A b : Z) (alpha : Q) (V : Z -> Q).
Hypothesis Ha : (0 < alpha)%Q.

Definition target (x : Z) : Q := if x <? A then 0%Q else (V x / alpha)%Q.
Record grown (out : plf) (l : Z) : Prop := {
  gr_chain : chain (- ORD_INF) (rev out) l;
  gr_affine : affines (rev out);
  gr_joined : joined (rev out);
  gr_rise : Forall (fun s : cs * fn => match snd s with FLin m _ => (0 < m)%Q /\ finite (lower (fst s)) /\ finite (upper (fst s)) | _ => True end) (rev out);
  gr_repr : forall k f x, In (k, f) out -> finite x -> lower k <= x < upper k -> (height f (dval x) == target x)%Q;
  gr_first : exists i r, rev out = (i, FConst 0) :: r;
  gr_wide : forall k m c, In (k, FLin m c) out -> lower k + 1 < upper k \/ (height (FLin m c) (dval (upper k)) == 1)%Q
}.

Lemma push : forall j g out l t h, grown ((j, g) :: out) l -> finite l -> l < t -> affine h ->
  (height g (dval l) == height h (dval l))%Q ->
  match h with FLin m _ => (0 < m)%Q /\ finite t /\ (l + 1 < t \/ (height h (dval t) == 1)%Q) | _ => True end ->
  (forall x, finite x -> l <= x < t -> (height h (dval x) == target x)%Q) ->
  grown ((CS l t INC EXC, h) :: (j, g) :: out) t.
Proof.
  intros j g out l t h G F L Ah E R H. pose proof (rev_last _ _ _ _ _ (gr_chain _ _ G)) as U. destruct G as [C Af J Ri Re Fi Wd]. constructor.
  - cbn [rev]. cbn [rev] in C. apply (chain_app _ _ _ l); [exact C|]. cbn [chain upper].
    destruct (Z.eqb_spec l (- ORD_INF)); [unfold finite in F; lia|]. repeat split; lia.
  - cbn [rev]. apply Forall_app. split; [exact Af|]. constructor; [exact Ah|constructor].
  - apply joined_rev; [exact J|]. rewrite U. exact E.
  - cbn [rev]. apply Forall_app. split; [exact Ri|]. constructor; [|constructor]. cbn [fst snd lower upper]. destruct h; try exact I. tauto.
  - intros k f x [K|K] Fx B; [injection K as <- <-; apply H; assumption|apply (Re k f x); assumption].
  - destruct Fi as (i & r & Er). exists i, (r ++ [(CS l t INC EXC, h)]). cbn [rev] in *. rewrite Er. reflexivity.
  - intros k m c [K|K]; [injection K as <- ->; cbn [lower upper]; apply R|exact (Wd k m c K)].
Qed.

Lemma grow : forall ps l j g out f_, run l ps b -> affines ps -> joined ps -> (forall k f, In (k, f) ps -> fits b k f) ->
  (forall k f x, In (k, f) ps -> lower k <= x < upper k -> (height f (dval x) == V x)%Q) ->
  A <= l -> finite l -> b <= ORD_INF -> grown ((j, g) :: out) l -> affine f_ -> affine g ->
  (height g (dval l) == height f_ (dval l) / alpha)%Q -> (0 < height f_ (dval l))%Q ->
  (ps <> [] -> height (hdfn ps) (dval l) == height f_ (dval l))%Q -> out <> [] ->
  match g with FLin _ _ => lower j + 1 < upper j | _ => True end ->
  exists j' g' out', crop_pieces alpha ps f_ ((j, g) :: out) = Ok ((j', g') :: out') /\ grown ((j', g') :: out') b /\ out' <> []
    /\ affine g' /\ match g' with FLin _ _ => lower j' + 1 < upper j' | _ => True end.
Proof.
  induction ps as [|[i f] ps IH]; intros l j g out f_ R Af J Fs Re Al Fl Bb G A_ Ag Eg Pf Hd No Wd.
  { cbn [run] in R. subst l. exists j, g, out. cbn [crop_pieces]. auto 10. }
  destruct R as (Ei & L & R). pose proof (Forall_inv Af) as Aff. cbn [snd] in Aff. specialize (Hd ltac:(discriminate)). cbn [hdfn] in Hd.
  pose proof (Fs i f (or_introl eq_refl)) as Fi. cbn [crop_pieces].
  assert (Li : lower i = l) by (rewrite Ei; reflexivity).
  pose proof (run_le _ _ _ R) as Lb.
  assert (Hv : forall x, l <= x < upper i -> (height f (dval x) == V x)%Q).
  { intros x B. apply (Re i f x); [left; reflexivity|]. rewrite Li. exact B. }
  assert (Tg : forall x, l <= x < upper i -> (target x == height f (dval x) / alpha)%Q).
  { intros x B. unfold target. destruct (Z.ltb_spec x A); [lia|]. rewrite (Hv x B). reflexivity. }
  destruct (eval_height g (dval l) Ag) as (y & Ey & Hy). destruct (eval_height f (dval l) Aff) as (a & Ea & Hfa). destruct (eval_height f_ (dval l) A_) as (b_ & Eb & Hb).
  assert (Up : finite (upper i) \/ upper i = ORD_INF) by (unfold finite in *; lia).
  assert (Nz : fn_eq f (FConst 0) = Ok false).
  { destruct f as [|z|m c|? ? ?]; try contradiction; cbn [fn_eq].
    - assert (Hz : (height (FConst z) (dval l) == z)%Q) by (unfold height; cbn [steepness]; ring).
      destruct (Qeqb_spec z 0) as [Z|_]; [|reflexivity]. lra.
    - cbn [fits] in Fi. unfold Qz. destruct (Qeqb_spec m 0) as [Z|_]; [lra|reflexivity]. }
  rewrite Nz. cbn [bind]. rewrite Li, Ey. cbn [bind]. rewrite Ea. cbn [bind]. rewrite Eb. cbn [bind].
  unfold mk_cs. destruct (Z.ltb_spec (upper i) l); [lia|]. cbn [bind].
  assert (Ec : (y + (a - b_) * alpha == height f (dval l) / alpha)%Q).
  { rewrite Hy, Hfa, Hb, Hd, Eg. field. lra. }
  set (c := ((a - b_) * alpha)%Q) in *. clearbody c.
  assert (Jt : ps <> [] -> (height (hdfn ps) (dval (upper i)) == height f (dval (upper i)))%Q).
  { intro N. destruct ps as [|[k h] ps]; [contradiction|]. destruct J as (J & _). cbn [hdfn]. symmetry. exact J. }
  assert (Jp : joined ps) by (destruct ps as [|[k h] ps]; [exact I|apply J]).
  assert (Fs' : forall k h, In (k, h) ps -> fits b k h) by (intros k h K; apply Fs; right; exact K).
  assert (Re' : forall k h x, In (k, h) ps -> lower k <= x < upper k -> (height h (dval x) == V x)%Q) by (intros k h x K; apply Re; right; exact K).
  pose proof (rev_last _ _ _ _ _ (gr_chain _ _ G)) as Uj.
  destruct f as [|z|m c0|? ? ?]; try contradiction.
  - (* constant *)
    assert (Ez : forall q, (height (FConst z) q == z)%Q) by (intro q; unfold height; cbn [steepness]; ring).
    assert (Ey' : forall q, (height (FConst (y + c)) q == y + c)%Q) by (intro q; unfold height; cbn [steepness]; ring).
    assert (G' : grown ((CS l (upper i) INC EXC, FConst (y + c)) :: (j, g) :: out) (upper i)).
    { apply push; try assumption; try exact I.
      - rewrite Eg, Ey', Ec, Hd. reflexivity.
      - intros x Fx B. rewrite Ey', Ec, (Tg x B), !Ez. reflexivity. }
    destruct ps as [|s ps].
    + cbn [run] in R. rewrite <- R. cbn [crop_pieces]. exists (CS l (upper i) INC EXC), (FConst (y + c)), ((j, g) :: out).
      split; [reflexivity|]. split; [exact G'|]. split; [discriminate|]. split; exact I.
    + assert (Fu : finite (upper i)). { destruct Up as [Up|Up]; [exact Up|]. destruct s as [k h]. destruct R as (_ & Lk & R). apply run_le in R. lia. }
      apply (IH (upper i) (CS l (upper i) INC EXC) (FConst (y + c)) ((j, g) :: out) (FConst z)); try assumption; try exact I; try lia; try discriminate.
      * exact (Forall_inv_tail Af).
      * rewrite Ey', Ec, !Ez. reflexivity.
      * rewrite Ez. rewrite <- Hd in Pf. rewrite Ez in Pf. exact Pf.
  - destruct Fi as (Pm & Fil & Fiu & Wi & Mi).
    assert (Si : cs_size i = if l + 1 =? upper i then Some 1 else None) by (rewrite Ei; apply size_one; exact L).
    rewrite Si. destruct (Z.eqb_spec (l + 1) (upper i)) as [S1|S1].
    + (* a single value, at the end *)
      assert (Eb' : upper i = b) by lia. rewrite Eb' in R. destruct ps as [|[k h] ps]; [|destruct R as (_ & Lk & R); apply run_le in R; lia].
      cbn [crop_pieces]. exists (CS l (upper i) INC EXC), (FConst (y + c)), ((j, g) :: out). split; [reflexivity|]. rewrite <- Eb'.
      assert (Ey' : forall q, (height (FConst (y + c)) q == y + c)%Q) by (intro q; unfold height; cbn [steepness]; ring).
      split; [|split; [discriminate|split; exact I]]. apply push; try assumption; try exact I.
      * rewrite Eg, Ey', Ec, Hd. reflexivity.
      * intros x Fx B. rewrite Ey', Ec, (Tg x B). replace x with l by lia. reflexivity.
    + (* linear *)
      unfold Qz. destruct (Qeqb_spec alpha 0) as [Z|_]; [lra|]. rewrite Mi.
      assert (Dl : (dval l < dval (upper i - 1))%Q) by (apply dval_lt; lia).
      unfold lin_from_points. destruct (Qeqb_spec (dval l) (dval (upper i - 1))) as [Z|_]; [lra|].
      assert (Pma : (0 < m / alpha)%Q) by (apply Qlt_shift_div_l; lra).
      assert (Pd : (0 < m / alpha * (dval (upper i - 1) - dval l))%Q) by (apply Qmult_lt_0_compat; lra).
      destruct (Qeqb_spec (m / alpha * (dval (upper i - 1) - dval l) + y + c) (y + c)) as [Z|_]; [lra|]. cbn [bind].
      match goal with |- context [FLin (?m1 / ?m2)%Q ?c1] => set (h := FLin (m1 / m2)%Q c1) end.
      assert (Hh : forall q, (height h q == height (FLin m c0) q / alpha)%Q).
      { intro q. unfold height in Ec |- *. unfold h. cbn [steepness] in Ec |- *.
        assert (E2 : ((m / alpha * (dval (upper i - 1) - dval l) + y + c - (y + c)) / (dval (upper i - 1) - dval l) == m / alpha)%Q) by (field; split; lra).
        rewrite E2, Ec. field. lra. }
      assert (Ph : (0 < steepness h)%Q).
      { unfold h. cbn [steepness]. assert (E2 : ((m / alpha * (dval (upper i - 1) - dval l) + y + c - (y + c)) / (dval (upper i - 1) - dval l) == m / alpha)%Q) by (field; split; lra).
        rewrite E2. exact Pma. }
      replace (set_lower (CS l (upper i) INC EXC) (upper j)) with (CS l (upper i) INC EXC) by (unfold set_lower; cbn [upper left right]; rewrite Uj; reflexivity).
      assert (Ah : affine h) by exact I.
      assert (G' : grown ((CS l (upper i) INC EXC, h) :: (j, g) :: out) (upper i)).
      { apply push; try assumption.
        - rewrite Eg, Hh, Hd. reflexivity.
        - unfold h. split; [exact Ph|split; [exact Fiu|left; lia]].
        - intros x Fx B. rewrite Hh, (Tg x B). reflexivity. }
      apply (IH (upper i) (CS l (upper i) INC EXC) h ((j, g) :: out) (FLin m c0)); try assumption; try exact I; try lia; try discriminate.
      * exact (Forall_inv_tail Af).
      * apply Hh.
      * unfold height in *. cbn [steepness] in *. assert (Dx : (dval l < dval (upper i))%Q) by (apply dval_lt; lia).
        assert (0 < m * (dval (upper i) - dval l))%Q by (apply Qmult_lt_0_compat; lra). lra.
      * unfold h. cbn [lower upper]. lia.
Qed.

Lemma start : forall ps l f_, run l ps b -> affines ps -> joined ps -> (forall k f, In (k, f) ps -> fits b k f) ->
  (forall k f x, In (k, f) ps -> lower k <= x < upper k -> (height f (dval x) == V x)%Q) ->
  A <= l -> - ORD_INF <= l -> b <= ORD_INF -> affine f_ -> (f_ = hdfn ps \/ forall q, (height f_ q == 0)%Q) ->
  (height (hdfn ps) (dval l) == 0)%Q -> (forall x, finite x -> x < l -> (target x == 0)%Q) ->
  (exists u, l <= u < b /\ (0 < V u)%Q) ->
  exists j' g' out', crop_pieces alpha ps f_ [(CS (- ORD_INF) l EXC EXC, FConst 0)] = Ok ((j', g') :: out') /\ grown ((j', g') :: out') b /\ out' <> []
    /\ affine g' /\ match g' with FLin _ _ => lower j' + 1 < upper j' | _ => True end.
Proof.
  induction ps as [|[i f] ps IH]; intros l f_ R Af J Fs Re Al Fl Bb A_ Hf Hd Tz (u & Bu & Pu).
  { cbn [run] in R. lia. }
  destruct R as (Ei & L & R). pose proof (Forall_inv Af) as Aff. cbn [snd] in Aff. cbn [hdfn] in Hd, Hf.
  pose proof (Fs i f (or_introl eq_refl)) as Fi.
  assert (Li : lower i = l) by (rewrite Ei; reflexivity).
  pose proof (run_le _ _ _ R) as Lb.
  assert (Hv : forall x, l <= x < upper i -> (height f (dval x) == V x)%Q).
  { intros x B. apply (Re i f x); [left; reflexivity|]. rewrite Li. exact B. }
  assert (Tg : forall x, l <= x < upper i -> (target x == height f (dval x) / alpha)%Q).
  { intros x B. unfold target. destruct (Z.ltb_spec x A); [lia|]. rewrite (Hv x B). reflexivity. }
  assert (Jt : ps <> [] -> (height (hdfn ps) (dval (upper i)) == height f (dval (upper i)))%Q).
  { intro N. destruct ps as [|[k h] ps]; [contradiction|]. destruct J as (J & _). cbn [hdfn]. symmetry. exact J. }
  assert (Jp : joined ps) by (destruct ps as [|[k h] ps]; [exact I|apply J]).
  assert (Fs' : forall k h, In (k, h) ps -> fits b k h) by (intros k h K; apply Fs; right; exact K).
  assert (Re' : forall k h x, In (k, h) ps -> lower k <= x < upper k -> (height h (dval x) == V x)%Q) by (intros k h x K; apply Re; right; exact K).
  cbn [crop_pieces]. destruct f as [|z|m c0|? ? ?]; try contradiction.
  - assert (Ez : forall q, (height (FConst z) q == z)%Q) by (intro q; unfold height; cbn [steepness]; ring).
    rewrite Ez in Hd. cbn [fn_eq]. destruct (Qeqb_spec z 0) as [_|Z]; [|lra]. cbn [bind].
    assert (Bu' : upper i <= u). { destruct (Z_lt_le_dec u (upper i)) as [B|B]; [|exact B]. exfalso. pose proof (Hv u ltac:(lia)) as E. rewrite Ez in E. lra. }
    assert (Np : ps <> []) by (intros ->; cbn [run] in R; lia).
    unfold set_upper. cbn [lower left right]. apply (IH (upper i) f_); try assumption; try lia.
    + exact (Forall_inv_tail Af).
    + right. destruct Hf as [->|Hf]; [intro q; rewrite Ez; exact Hd|exact Hf].
    + rewrite (Jt Np), Ez. exact Hd.
    + intros x Fx B. destruct (Z_lt_le_dec x l) as [B'|B']; [apply Tz; assumption|]. rewrite (Tg x ltac:(lia)), Ez, Hd. field. lra.
    + exists u. split; [lia|exact Pu].
  - destruct Fi as (Pm & Fil & Fiu & Wi & Mi). rewrite Li in Fil.
    destruct (eval_height (FLin m c0) (dval l) Aff) as (a & Ea & Hfa). destruct (eval_height f_ (dval l) A_) as (b_ & Eb & Hb).
    assert (Nz : fn_eq (FLin m c0) (FConst 0) = Ok false).
    { cbn [fn_eq]. unfold Qz. destruct (Qeqb_spec m 0) as [Z|_]; [lra|reflexivity]. }
    rewrite Nz. cbn [bind]. rewrite Li. change (eval_num (FConst 0) (dval l)) with (Ok 0%Q). cbn [bind]. rewrite Ea. cbn [bind]. rewrite Eb. cbn [bind].
    unfold mk_cs. destruct (Z.ltb_spec (upper i) l); [lia|]. cbn [bind].
    assert (Ec : ((a - b_) * alpha == 0)%Q).
    { destruct Hf as [->|Hf]; [rewrite Hfa, Hb; ring|]. rewrite Hfa, Hb, Hd, (Hf (dval l)). ring. }
    set (c := ((a - b_) * alpha)%Q) in *. clearbody c.
    assert (Si : cs_size i = if l + 1 =? upper i then Some 1 else None) by (rewrite Ei; apply size_one; exact L).
    rewrite Si. destruct (Z.eqb_spec (l + 1) (upper i)) as [S1|S1].
    { exfalso. assert (upper i = b) by lia. assert (u = l) by lia. subst u. pose proof (Hv l ltac:(lia)) as E. lra. }
    unfold Qz. destruct (Qeqb_spec alpha 0) as [Z|_]; [lra|]. rewrite Mi.
    assert (Dl : (dval l < dval (upper i - 1))%Q) by (apply dval_lt; lia).
    unfold lin_from_points. destruct (Qeqb_spec (dval l) (dval (upper i - 1))) as [Z|_]; [lra|].
    assert (Pma : (0 < m / alpha)%Q) by (apply Qlt_shift_div_l; lra).
    assert (Pd : (0 < m / alpha * (dval (upper i - 1) - dval l))%Q) by (apply Qmult_lt_0_compat; lra).
    destruct (Qeqb_spec (m / alpha * (dval (upper i - 1) - dval l) + 0 + c) (0 + c)) as [Z|_]; [lra|]. cbn [bind].
    match goal with |- context [FLin (?m1 / ?m2)%Q ?c1] => set (h := FLin (m1 / m2)%Q c1) end.
    assert (E2 : ((m / alpha * (dval (upper i - 1) - dval l) + 0 + c - (0 + c)) / (dval (upper i - 1) - dval l) == m / alpha)%Q) by (field; split; lra).
    assert (Hh : forall q, (height h q == height (FLin m c0) q / alpha)%Q).
    { intro q. unfold height in Hd |- *. unfold h. cbn [steepness] in Hd |- *. rewrite E2, Ec. assert (c0 == - (m * dval l))%Q as -> by lra. field. lra. }
    assert (Ph : (0 < steepness h)%Q) by (unfold h; cbn [steepness]; rewrite E2; exact Pma).
    replace (set_lower (CS l (upper i) INC EXC) (upper (CS (- ORD_INF) l EXC EXC))) with (CS l (upper i) INC EXC) by reflexivity.
    assert (Ah : affine h) by exact I.
    assert (E0 : forall q, (height (FConst 0) q == 0)%Q) by (intro q; unfold height; cbn [steepness]; ring).
    assert (G0 : grown [(CS (- ORD_INF) l EXC EXC, FConst 0)] l).
    { constructor; cbn [rev app].
      - cbn [chain upper]. rewrite Z.eqb_refl. unfold finite in Fil. repeat split; lia.
      - constructor; [exact I|constructor].
      - exact I.
      - constructor; [exact I|constructor].
      - intros k f x [K|[]] Fx B. injection K as <- <-. cbn [lower upper] in B. rewrite E0. symmetry. apply Tz; [exact Fx|lia].
      - eexists. eexists. reflexivity.
      - intros k m' c' [K|[]]. discriminate K. }
    assert (G' : grown [(CS l (upper i) INC EXC, h); (CS (- ORD_INF) l EXC EXC, FConst 0)] (upper i)).
    { apply push; try assumption.
      - rewrite Hh, Hd, E0. field. lra.
      - unfold h. split; [exact Ph|split; [exact Fiu|left; lia]].
      - intros x Fx B. rewrite Hh, (Tg x B). reflexivity. }
    apply (grow ps (upper i) (CS l (upper i) INC EXC) h [(CS (- ORD_INF) l EXC EXC, FConst 0)] (FLin m c0)); try assumption; try exact I; try lia; try discriminate.
    + exact (Forall_inv_tail Af).
    + apply Hh.
    + unfold height in *. cbn [steepness] in *. assert (Dx : (dval l < dval (upper i))%Q) by (apply dval_lt; lia).
      assert (0 < m * (dval (upper i) - dval l))%Q by (apply Qmult_lt_0_compat; lra). lra.
    + unfold h. cbn [lower upper]. lia.
Qed.
End Grow.

Lemma grown_ext : forall A alpha V V' out l, grown A alpha V out l -> (forall x, x < l -> (V x == V' x)%Q) -> grown A alpha V' out l.
Proof.
  intros A alpha V V' out l G E. pose proof (gr_chain _ _ _ _ _ G) as C. destruct G as [Ch Af J Ri Re Fi Wd]. constructor; try assumption.
  intros k f x I F B. rewrite (Re k f x I F B). unfold target. destruct (x <? A); [reflexivity|]. rewrite E; [reflexivity|].
  destruct (chain_in _ _ _ k f C) as (_ & U & _); [apply in_rev in I; exact I|]. lia.
Qed.
Lemma joined_app_inv : forall p i f k h, joined (p ++ [(i, f); (k, h)]) -> joined (p ++ [(i, f)]) /\ (height f (dval (upper i)) == height h (dval (upper i)))%Q.
Proof.
  induction p as [|[j g] p IH]; intros i f k h J; [destruct J as (J & _); split; [exact I|exact J]|]. destruct p as [|[j' g'] p].
  - destruct J as (J1 & J2 & _). split; [split; [exact J1|exact I]|exact J2].
  - destruct J as (J & J'). destruct (IH i f k h J') as (A & B). split; [split; [exact J|exact A]|exact B].
Qed.
Lemma pop : forall A alpha V j g k h out l, grown A alpha V ((j, g) :: (k, h) :: out) l ->
  grown A alpha V ((k, h) :: out) (lower j) /\ j = CS (lower j) l INC EXC /\ - ORD_INF < lower j < l /\ (height h (dval (lower j)) == height g (dval (lower j)))%Q.
Proof.
  intros A alpha V j g k h out l [C Af J Ri Re Fi Wd]. cbn [rev] in C, Af, J, Ri, Fi. pose proof C as C'. apply chain_app_inv in C'. destruct C' as (u & C1 & C2).
  cbn [chain] in C2. destruct C2 as (Ej & Lj & Uj). pose proof C1 as C3. apply chain_app_inv in C3. destruct C3 as (w & C3 & C4). cbn [chain] in C4. destruct C4 as (Ek & Lk & Uk).
  apply chain_le in C3. assert (Lw : lower j = u) by (rewrite Ej; reflexivity).
  rewrite <- app_assoc in J. cbn [app] in J. destruct (joined_app_inv _ _ _ _ _ J) as (J1 & J2). split; [|split; [|split]].
  - constructor; cbn [rev].
    + rewrite Lw. exact C1.
    + apply Forall_app in Af. apply Af.
    + exact J1.
    + apply Forall_app in Ri. apply Ri.
    + intros k' f' x I F B. apply (Re k' f' x); [right; exact I|exact F|exact B].
    + destruct Fi as (i & r & E). assert (Nn : rev out ++ [(k, h)] <> []) by (destruct (rev out); discriminate). destruct (rev out ++ [(k, h)]) as [|a p]; [contradiction|].
      cbn [app] in E. injection E as -> _. exists i, p. reflexivity.
    + intros k' m' c' I. apply Wd. right. exact I.
  - rewrite Ej at 1. rewrite Lw, Uj. destruct (Z.eqb_spec u (- ORD_INF)); [lia|reflexivity].
  - lia.
  - rewrite Lw. rewrite Uk in J2. exact J2.
Qed.

Lemma minus_plus : forall x, Z.abs x < ORD_53 -> minus_eps (x + 1) = x.
Proof.
  intros x H. unfold minus_eps, subs_one, adds_one. pose proof ord_facts as O. destruct (Z.ltb_spec (Z.abs (- (x + 1))) ORD_53); [lia|].
  assert (x = ORD_53 - 1) as -> by lia. reflexivity.
Qed.
Lemma fn_is_height : forall f q y, affine f -> (fn_is f q y <-> (height f q == y)%Q).
Proof.
  intros [|u|m c|? ? ?] q y A; try contradiction; unfold fn_is, height; cbn [fn_eval steepness]; split.
  - intros (v & E & H). injection E as <-. lra.
  - intro H. eexists. split; [reflexivity|]. lra.
  - intros (v & E & H). injection E as <-. exact H.
  - intro H. eexists. split; [reflexivity|exact H].
Qed.
Lemma tiling_joined : forall p, affines p -> tiling p -> joined p.
Proof.
  induction p as [|[i f] p IH]; intros A T; [exact I|]. destruct p as [|[j g] p]; [exact I|]. destruct T as (_ & _ & (y & Y1 & Y2) & T).
  split; [|apply IH; [exact (Forall_inv_tail A)|exact T]]. pose proof (Forall_inv A) as A1. pose proof (Forall_inv (Forall_inv_tail A)) as A2. cbn [snd] in A1, A2.
  apply fn_is_height in Y1; [|exact A1]. apply fn_is_height in Y2; [|exact A2]. rewrite Y1, Y2. reflexivity.
Qed.
Lemma joined_tiling : forall p a b, chain a p b -> affines p -> joined p -> tiling p.
Proof.
  induction p as [|[i f] p IH]; intros a b C A J; [exact I|]. destruct C as (E & L & C). assert (Li : lower i = a) by (rewrite E; reflexivity).
  destruct p as [|[j g] p]; [cbn; lia|]. pose proof (Forall_inv A) as A1. pose proof (Forall_inv (Forall_inv_tail A)) as A2. cbn [snd] in A1, A2.
  destruct J as (J1 & J2). pose proof C as C'. destruct C' as (Ej & _). split; [lia|]. split; [rewrite Ej; reflexivity|]. split.
  - exists (height f (dval (upper i))). split; [apply fn_is_height; [exact A1|reflexivity]|apply fn_is_height; [exact A2|symmetry; exact J1]].
  - exact (IH _ _ C (Forall_inv_tail A) J2).
Qed.

(** The piece at the right end of a cdf is the constant 1. *)
Lemma proper_last : forall p hi i f lo0, chain (- ORD_INF) p ORD_INF -> affines p -> finite hi -> proper_cdf p lo0 hi -> In (i, f) p -> upper i = ORD_INF ->
  match f with FLin _ _ => False | _ => True end -> forall q, (height f q == 1)%Q.
Proof.
  intros p hi i f lo0 C A Fh P I U Nl q. pose proof (chain_in _ _ _ _ _ C I) as B.
  set (x := Z.max (lower i) hi). assert (Fx : finite x) by (unfold finite, x in *; lia). assert (Bx : lower i <= x < upper i) by (unfold finite in Fx; lia).
  pose proof (pc_right _ _ _ P x Fx ltac:(lia)) as V. apply plf_is_at in V. destruct V as (g & Eg & Hg).
  rewrite (chain_at p _ _ i f x C ltac:(lia) ltac:(lia) I Fx Bx) in Eg. injection Eg as <-.
  unfold affines in A. rewrite Forall_forall in A. specialize (A _ I). cbn [snd] in A. apply fn_is_height in Hg; [|exact A].
  destruct f as [|v|m c|? ? ?]; try contradiction. unfold height in *. cbn [steepness] in *. lra.
Qed.

(** From the finished list to the claims. *)
Lemma grown_cdf : forall A u alpha V out hi, grown A alpha V out ORD_INF -> (0 < alpha)%Q -> - ORD_INF <= A < ORD_INF -> finite hi ->
  (forall x, finite x -> hi <= x -> A <= x /\ (V x == alpha)%Q) ->
  (forall x y, A <= x -> x <= y -> finite x -> finite y -> (0 <= V x <= V y)%Q) ->
  A <= u -> spread_cdf (rev out) /\ tiling (rev out) /\ (forall x, finite x -> plf_is (rev out) x (target A alpha V x)).
Proof.
  intros A u alpha V out hi G Ha HA Fh Hh Mono Au. destruct G as [C Af J Ri Re Fi Wd]. set (r := rev out) in *.
  assert (T : tiling r) by exact (joined_tiling _ _ _ C Af J).
  assert (Vl : forall x, finite x -> plf_is r x (target A alpha V x)).
  { intros x Fx. assert (Ex : exists k f, In (k, f) r /\ lower k <= x < upper k).
    { clear - C Fx. unfold finite in Fx. assert (K : forall p a b, chain a p b -> a <= x < b -> exists k f, In (k, f) p /\ lower k <= x < upper k).
      { induction p as [|[i f] p IH]; intros a b Ch B; [cbn [chain] in Ch; lia|]. destruct Ch as (E & L & Ch). destruct (Z_lt_le_dec x (upper i)).
        - exists i, f. split; [left; reflexivity|]. rewrite E at 1. cbn [lower]. lia.
        - destruct (IH _ _ Ch ltac:(lia)) as (k & g & I & B'). exists k, g. split; [right; exact I|exact B']. }
      apply (K r _ _ C). lia. }
    destruct Ex as (k & f & I & B). apply plf_is_at. exists f. split; [exact (chain_at r _ _ k f x C ltac:(lia) ltac:(lia) I Fx B)|].
    unfold affines in Af. rewrite Forall_forall in Af. specialize (Af _ I). cbn [snd] in Af. apply fn_is_height; [exact Af|].
    apply (Re k f x); [apply in_rev; exact I|exact Fx|exact B]. }
  assert (Pr : proper_cdf r A hi).
  { assert (Tr : forall x, finite x -> (0 <= target A alpha V x <= 1)%Q).
    { intros x Fx. unfold target. destruct (Z.ltb_spec x A); [lra|].
      assert (Fm : finite (Z.max x hi)) by (unfold finite in *; lia).
      destruct (Mono x (Z.max x hi) ltac:(lia) ltac:(lia) Fx Fm) as (M1 & M2). destruct (Hh (Z.max x hi) Fm ltac:(lia)) as (_ & E).
      split; [apply Qle_shift_div_l; lra|apply Qle_shift_div_r; lra]. }
    constructor.
    - intros x Fx L. pose proof (Vl x Fx) as H. unfold target in H. destruct (Z.ltb_spec x A); [exact H|lia].
    - intros x Fx L. pose proof (Vl x Fx) as H. unfold target in H. destruct (Hh x Fx L) as (L' & E). destruct (Z.ltb_spec x A); [lia|].
      apply (plf_is_wd _ _ _ 1%Q) with (2 := H). rewrite E. field. lra.
    - intros x Fx. eexists. split; [exact (Vl x Fx)|exact (Tr x Fx)].
    - intros x x' y y' Fx Fx' L Y Y'. rewrite (plf_is_fun _ _ _ _ Y (Vl x Fx)), (plf_is_fun _ _ _ _ Y' (Vl x' Fx')).
      unfold target at 1. destruct (Z.ltb_spec x A); [apply (Tr x' Fx')|]. unfold target. destruct (Z.ltb_spec x' A); [lia|].
      destruct (Mono x x' ltac:(lia) L Fx Fx') as (_ & M). unfold Qdiv. apply Qmult_le_compat_r; [exact M|]. apply Qinv_le_0_compat. lra. }
  split; [|split; [exact T|exact Vl]].
  destruct Fi as (i & r' & Er).
  assert (La : exists p k f, r = p ++ [(k, f)] /\ upper k = ORD_INF).
  { destruct out as [|[k f] out']; [discriminate Er|]. exists (rev out'), k, f. split; [reflexivity|]. exact (rev_last _ _ _ _ _ C). }
  destruct La as (pl & kl & fl & El & Ul).
  assert (Il : In (kl, fl) r) by (rewrite El; apply in_or_app; right; left; reflexivity).
  assert (Nl : match fl with FLin _ _ => False | _ => True end).
  { destruct fl; try exact I. rewrite Forall_forall in Ri. specialize (Ri _ Il). cbn [fst snd] in Ri. destruct Ri as (_ & _ & Fu). unfold finite in Fu. lia. }
  assert (Vf : forall q, (height fl q == 1)%Q) by exact (proper_last r hi kl fl A C Af Fh Pr Il Ul Nl).
  assert (Some : exists i m c, In (i, FLin m c) r).
  { assert (D : (exists i m c, In (i, FLin m c) r) \/ Forall (fun s : cs * fn => exists v, snd s = FConst v) r).
    { clear - Af. induction r as [|[k f] q IH]; [right; constructor|].
      destruct (IH (Forall_inv_tail Af)) as [(j & m & c & I)|F]; [left; exists j, m, c; right; exact I|].
      pose proof (Forall_inv Af) as Aff. cbn in Aff. destruct f as [|v|m c|? ? ?]; try contradiction; [right; constructor; [exists v; reflexivity|exact F]|left; exists k, m, c; left; reflexivity]. }
    destruct D as [D|D]; [exact D|]. exfalso. pose proof D as D'. rewrite Forall_forall in D'. destruct (D' _ Il) as (v & Ev). cbn [snd] in Ev. subst fl.
    assert (0 == v)%Q; [|specialize (Vf 0%Q); unfold height in Vf; cbn [steepness] in Vf; lra].
    apply (tiling_flat r (i, FConst 0) (kl, FConst v) T D); try reflexivity; [rewrite Er; left; reflexivity|exact Il]. }
  constructor.
  - exact C.
  - exact Af.
  - destruct Some as (j & m & c & I). rewrite Er in I. rewrite Er. destruct I as [I|I]; [discriminate I|]. destruct r' as [|s [|t r']]; cbn [length]; [destruct I| |lia].
    exfalso. rewrite Er in Il. destruct I as [I|[]]. subst s. destruct Il as [Il|[Il|[]]]; injection Il as <- <-; [|exact Nl].
    specialize (Vf 0%Q). unfold height in Vf. cbn [steepness] in Vf. lra.
  - exists i, r'. exact Er.
  - exact Ri.
  - exact Some.
  - exists A, hi. split; [exact Fh|exact Pr].
Qed.
