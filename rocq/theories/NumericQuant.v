(** Quantiles: the inverse of a continuous cdf (property C26). *)
Require Import ZArith QArith Qabs Lqa Bool List Arith Lia.
Require Import Verif.Base Verif.FloatLine Verif.FloatVal Verif.IntervalModel Verif.IntervalSpec Verif.IntervalProofs
  Verif.NumBase Verif.FunctionModel Verif.FunctionSpec Verif.FunctionProofs Verif.NumericModel Verif.NumericSpec
  Verif.NumericFit Verif.NumericProb Verif.NumericCrop.
Import ListNotations.
Open Scope Z_scope.

(** Pieces that climb from height [y] to 1. *)
Fixpoint climbs (y : Q) (p : plf) : Prop :=
  match p with
  | [] => (1 <= y)%Q
  | (i, f) :: r =>
      match f with
      | FConst v => ((v == y /\ y <= 1) \/ (v == 1 /\ 1 <= y))%Q /\ (r = [] \/ isinf (upper i) = false) /\ climbs y r
      | FLin m c => (1 # 10000 <= m)%Q /\ (y < 1)%Q /\ finite (lower i) /\ finite (upper i) /\ lower i < upper i /\ left i = INC /\ right i = EXC
                    /\ (m * dval (lower i) + c == y)%Q /\ climbs (m * dval (upper i) + c) r
      | _ => False
      end
  end.

Lemma climbs_wd : forall p y y', (y == y')%Q -> climbs y p -> climbs y' p.
Proof.
  induction p as [|[i f] r IH]; intros y y' E C; cbn [climbs] in *; [lra|]. destruct f; try contradiction.
  - destruct C as (D & U & C). split; [destruct D; [left|right]; lra|]. split; [exact U|]. exact (IH _ _ E C).
  - destruct C as (A & B & C1 & C2 & C3 & C4 & C5 & C6 & C7). split; [exact A|]. split; [lra|]. do 5 (split; [assumption|]). split; [lra|exact C7].
Qed.

Definition owns (i : cs) (m c t : Q) : Prop := (m * dval (lower i) + c <= t < m * dval (upper i) + c)%Q.

(** Rising pieces start above the current height. *)
Lemma climbs_above : forall p y i m c, climbs y p -> In (i, FLin m c) p -> (y <= m * dval (lower i) + c)%Q /\ (m * dval (lower i) + c < 1)%Q /\ (y < 1)%Q.
Proof.
  induction p as [|[j f] r IH]; intros y i m c C I; [destruct I|]. destruct I as [E|I].
  - injection E as -> ->. destruct C as (_ & L & _ & _ & _ & _ & _ & E & _). lra.
  - cbn [climbs] in C. destruct f; try contradiction.
    + apply (IH y i m c (proj2 (proj2 C)) I).
    + destruct C as (A & B & C1 & C2 & C3 & _ & _ & C6 & C7). destruct (IH _ i m c C7 I) as (K1 & K2 & _).
      assert (dval (lower j) < dval (upper j))%Q by (apply dval_lt; exact C3).
      assert (0 < m0 * (dval (upper j) - dval (lower j)))%Q by (apply Qmult_lt_0_compat; lra).
      assert (m0 * (dval (upper j) - dval (lower j)) == m0 * dval (upper j) - m0 * dval (lower j))%Q by ring. lra.
Qed.
Lemma climbs_flat : forall p y, climbs y p -> (1 <= y)%Q -> ~ exists i m c, In (i, FLin m c) p.
Proof. intros p y C L (i & m & c & I). pose proof (climbs_above p y i m c C I). lra. Qed.
(** Every height below 1 is owned by a piece. *)
Lemma climbs_owner : forall p y t, climbs y p -> (y <= t < 1)%Q -> exists i m c, In (i, FLin m c) p /\ owns i m c t /\ left i = INC /\ right i = EXC /\ (1 # 10000 <= m)%Q.
Proof.
  induction p as [|[j f] r IH]; intros y t C B; cbn [climbs] in C; [lra|]. destruct f as [| |m c|]; try contradiction.
  - destruct (IH y t (proj2 (proj2 C)) B) as (i & m & c & I & K). exists i, m, c. split; [right; exact I|exact K].
  - destruct C as (A & L & _ & _ & _ & F1 & F2 & E & C). destruct (Qlt_le_dec t (m * dval (upper j) + c)) as [H|H].
    + exists j, m, c. split; [left; reflexivity|]. split; [unfold owns; lra|]. repeat split; assumption.
    + destruct (IH _ t C (conj H (proj2 B))) as (i & m' & c' & I & K). exists i, m', c'. split; [right; exact I|exact K].
Qed.
Definition inverse (m c : Q) : fn := FLin (1 / m) (- c / m).

Lemma finite_noninf : forall x, finite x -> isinf x = false.
Proof. intros x F. unfold finite in F. unfold isinf. apply Z.leb_gt. lia. Qed.
Lemma ope_gt : (1 < ope)%Q. Proof. reflexivity. Qed.
Lemma Qmin2_l : forall y, (y <= 1)%Q -> Qmin2 ope y = y.
Proof. intros y L. unfold Qmin2, Qltb. destruct (Qleb_spec ope y) as [H|H]; [|reflexivity]. pose proof ope_gt. lra. Qed.
Lemma Qmin2_cases : forall y, (Qmin2 ope y = y /\ (y < ope)%Q) \/ (Qmin2 ope y = ope /\ (ope <= y)%Q).
Proof. intro y. unfold Qmin2, Qltb. destruct (Qleb_spec ope y) as [H|H]; cbn [negb]; [right|left]; split; try reflexivity; lra. Qed.

(** The loop over pieces whose heights are 1 or more produces nothing. *)
Lemma ppf_loop_top : forall p y yc, climbs y p -> (1 <= y)%Q -> (1 <= yc)%Q -> ppf_loop p yc = Ok [].
Proof.
  induction p as [|[i f] r IH]; intros y yc C L Lc; [reflexivity|]. cbn [climbs] in C. destruct f as [| |m c|]; try contradiction; [|destruct C as (_ & C & _); lra].
  destruct C as (D & Ui & C). assert (V : (v == 1)%Q) by (destruct D; lra). cbn [ppf_loop fn_is_invertible intercept].
  unfold Qz. destruct (Qeqb_spec v 0) as [Z|Z]; [lra|].
  assert (E : eval_bound (FConst v) (lower i) = Ok v). { unfold eval_bound. destruct (isinf (lower i)); reflexivity. }
  rewrite E. cbn [bind]. unfold Qltb. destruct (Qleb_spec v yc) as [_|K]; [|lra]. cbn [negb].
  exact (IH y yc C L Lc).
Qed.

(** Values of the produced function. *)
Lemma ppf_loop_spec : forall p y yc, climbs y p -> (0 <= y < 1)%Q -> (yc == y)%Q ->
  exists l, ppf_loop p yc = Ok l /\ l <> [] /\ Forall (fun e => snd e = FUndef \/ exists m c, snd e = inverse m c /\ (0 < m)%Q) l
    /\ (forall t lo, (lo == y)%Q -> (forall i m c, In (i, FLin m c) p -> owns i m c t -> (t < ope)%Q -> ppf_at (ppf_finish l) (Some lo) t = Some (inverse m c)))
    /\ (forall lo, (lo == y)%Q -> exists pre i m c r', p = pre ++ (i, FLin m c) :: r' /\ (m * dval (lower i) + c < 1 <= m * dval (upper i) + c)%Q /\ climbs (m * dval (upper i) + c) r' /\ ppf_at (ppf_finish l) (Some lo) 1 = Some (inverse m c))
    /\ (forall t lo, (lo == y)%Q -> (ope <= t)%Q -> ppf_at (ppf_finish l) (Some lo) t = Some FUndef).
Proof.
  induction p as [|[i f] r IH]; intros y yc C B Ey; cbn [climbs] in C; [lra|]. destruct f as [|v|m c|]; try contradiction.
  - destruct C as (D & Ui & C). assert (V : (v == y)%Q) by (destruct D; lra). cbn [ppf_loop fn_is_invertible intercept]. unfold Qz.
    destruct (Qeqb_spec v 0) as [Z|Z].
    + (* a leading 0 *)
      destruct (IH y v C B V) as (l & El & Nl & F & H1 & H2 & H3).
      assert (Uf : isinf (upper i) = false). { destruct Ui as [->|U]; [cbn in C; lra|exact U]. } cbn [bind].
      unfold eval_bound. rewrite Uf. cbn [eval_num fn_eval bind]. rewrite Qmin2_l by lra. rewrite El. cbn [bind].
      exists ((v, FUndef) :: l). split; [reflexivity|]. split; [discriminate|]. split; [constructor; [left; reflexivity|exact F]|].
      assert (St : forall t lo, (y <= t)%Q -> ppf_at (ppf_finish ((v, FUndef) :: l)) (Some lo) t = ppf_at (ppf_finish l) (Some v) t).
      { intros t lo Lt. destruct l as [|e l]; [congruence|]. destruct e as [u g]. change (ppf_finish ((v, FUndef) :: (u, g) :: l)) with ((Some v, FUndef) :: ppf_finish ((u, g) :: l)).
        cbn [ppf_at]. unfold Qltb. destruct (Qleb_spec v t) as [_|K]; [|lra]. cbn [negb]. rewrite andb_false_r. reflexivity. }
      split; [|split].
      * intros t lo Hlo j m c [Ej|I]; [discriminate|]. intros O Lt. rewrite St; [|pose proof (climbs_above r y j m c C I); unfold owns in O; lra]. apply (H1 t v V j m c I); assumption.
      * intros lo Hlo. destruct (H2 v V) as (pre & j & m & c & r' & I & K1 & K2 & K3). exists ((i, FConst v) :: pre), j, m, c, r'. split; [rewrite I; reflexivity|]. split; [exact K1|]. split; [exact K2|]. rewrite St by lra. exact K3.
      * intros t lo Hlo Lt. rewrite St by (pose proof ope_gt; lra). apply (H3 t v V Lt).
    + assert (E : eval_bound (FConst v) (lower i) = Ok v) by (unfold eval_bound; destruct (isinf (lower i)); reflexivity).
      rewrite E. cbn [bind]. unfold Qltb. destruct (Qleb_spec v yc) as [_|K]; [|lra]. cbn [negb].
      destruct (IH y yc C B Ey) as (l & El & Nl & F & H1 & H2 & H3). exists l. split; [exact El|]. split; [exact Nl|]. split; [exact F|]. split; [|split; [|exact H3]].
      * intros t lo Hlo j m c [Ej|I]; [discriminate|]. intros. apply (H1 t lo Hlo j m c I); assumption.
      * intros lo Hlo. destruct (H2 lo Hlo) as (pre & j & m & c & r' & I & K). exists ((i, FConst v) :: pre), j, m, c, r'. split; [rewrite I; reflexivity|exact K].
  - destruct C as (Am & L & F1 & F2 & Lt & Il & Ir & Eh & C). cbn [ppf_loop fn_is_invertible].
    unfold lin_is_invertible. destruct (Qleb_spec (1 # 10000) (Qabs m)) as [_|K]; [|rewrite Qabs_pos in K; lra].
    unfold lin_invert, Qz. destruct (Qeqb_spec m 0) as [Z|Z]; [lra|]. cbn [bind]. fold (inverse m c).
    unfold eval_bound. rewrite (finite_noninf _ F2). cbn [eval_num fn_eval bind].
    set (h := (m * dval (upper i) + c)%Q) in *. assert (Dl : (dval (lower i) < dval (upper i))%Q) by (apply dval_lt; exact Lt).
    assert (Hh : (y < h)%Q). { assert (0 < m * (dval (upper i) - dval (lower i)))%Q by (apply Qmult_lt_0_compat; lra).
      assert (m * (dval (upper i) - dval (lower i)) == m * dval (upper i) - m * dval (lower i))%Q by ring. unfold h. lra. }
    destruct (Qlt_le_dec h 1) as [H|H].
    + rewrite (Qmin2_l h) by lra. destruct (IH h h C) as (l & El & Nl & F & H1 & H2 & H3); [lra|reflexivity|]. rewrite El. cbn [bind].
      exists ((h, inverse m c) :: l). split; [reflexivity|]. split; [discriminate|]. split; [constructor; [right; exists m, c; split; [reflexivity|lra]|exact F]|].
      assert (Fin : ppf_finish ((h, inverse m c) :: l) = (Some h, inverse m c) :: ppf_finish l) by (destruct l; [congruence|reflexivity]).
      assert (St : forall t lo, (h <= t)%Q -> ppf_at (ppf_finish ((h, inverse m c) :: l)) (Some lo) t = ppf_at (ppf_finish l) (Some h) t).
      { intros t lo Ht. rewrite Fin. cbn [ppf_at]. unfold Qltb. destruct (Qleb_spec h t) as [_|K]; [|lra]. cbn [negb]. rewrite andb_false_r. reflexivity. }
      split; [|split].
      * intros t lo Hlo j m' c' [Ej|I] O To.
        -- injection Ej as <- <- <-. unfold owns in O. fold h in O. rewrite Fin. cbn [ppf_at]. unfold Qltb. destruct (Qleb_spec lo t) as [_|K]; [|lra]. destruct (Qleb_spec h t) as [K|_]; [lra|]. reflexivity.
        -- rewrite St; [|pose proof (climbs_above r h j m' c' C I); unfold owns in O; lra]. apply (H1 t h (Qeq_refl h) j m' c' I); assumption.
      * intros lo Hlo. destruct (H2 h (Qeq_refl h)) as (pre & j & m' & c' & r' & I & K1 & K2 & K3). exists ((i, FLin m c) :: pre), j, m', c', r'. split; [rewrite I; reflexivity|]. split; [exact K1|]. split; [exact K2|]. rewrite St by lra. exact K3.
      * intros t lo Hlo To. rewrite St by (pose proof ope_gt; lra). apply (H3 t h (Qeq_refl h) To).
    + assert (N : ppf_loop r (Qmin2 ope h) = Ok []).
      { apply (ppf_loop_top r h (Qmin2 ope h) C H). destruct (Qmin2_cases h) as [(-> & _)|(-> & _)]; [exact H|pose proof ope_gt; lra]. }
      rewrite N. cbn [bind]. exists [(Qmin2 ope h, inverse m c)]. split; [reflexivity|]. split; [discriminate|]. split; [constructor; [right; exists m, c; split; [reflexivity|lra]|constructor]|].
      cbn [ppf_finish]. split; [|split].
      * intros t lo Hlo j m' c' [Ej|I] O To.
        -- injection Ej as <- <- <-. unfold owns in O. cbn [ppf_at]. unfold Qltb. destruct (Qleb_spec lo t) as [_|K]; [|lra]. destruct (Qleb_spec ope t) as [K|_]; [lra|]. reflexivity.
        -- exfalso. apply (climbs_flat r h C H). exists j, m', c'. exact I.
      * intros lo Hlo. exists [], i, m, c, r. split; [reflexivity|]. split; [fold h; lra|]. split; [exact C|]. cbn [ppf_at]. unfold Qltb. destruct (Qleb_spec lo 1) as [_|K]; [|lra]. destruct (Qleb_spec ope 1) as [K|_]; [pose proof ope_gt; lra|]. reflexivity.
      * intros t lo Hlo To. cbn [ppf_at]. unfold Qltb. destruct (Qleb_spec ope t) as [_|K]; [|lra]. cbn [negb]. rewrite andb_false_r. reflexivity.
Qed.

(** Continuous cdfs climb. *)
Lemma cdf_climbs : forall p hi, spread_cdf p -> climbs_to p hi -> steep_cdf p ->
  forall q pre a y, p = pre ++ q -> chain a q ORD_INF -> - ORD_INF <= a ->
    (a <= hi -> match q with (_, f) :: _ => (height f (dval a) == y)%Q | [] => True end /\ (y <= 1)%Q) -> (hi < a -> (1 <= y)%Q) -> climbs y q.
Proof.
  intros p hi S T Sp. pose proof (ct_one p hi T) as (Fh & One). pose proof (sp_affine p S) as Af. unfold affines in Af. rewrite Forall_forall in Af.
  pose proof (sp_rise p S) as Ri. rewrite Forall_forall in Ri. destruct (sp_proper p S) as (lo0 & hi0 & _ & Pr). pose proof (sp_chain p S) as Ch.
  assert (At : forall i f x, In (i, f) p -> finite x -> lower i <= x < upper i -> plf_is p x (height f (dval x))).
  { intros i f x I Fx B. apply (plf_is_of p x f); [apply (chain_at _ _ _ i f x Ch); try assumption; lia|]. apply fn_is_height; [exact (Af _ I)|reflexivity]. }
  assert (Le1 : forall x y, finite x -> plf_is p x y -> (y <= 1)%Q).
  { intros x y Fx V. destruct (pc_range _ _ _ Pr x Fx) as (z & Vz & B). rewrite (plf_is_fun _ _ _ _ V Vz). lra. }
  unfold finite in Fh.
  induction q as [|[i f] r IH]; intros pre a y Ep C La Lo Hi.
  - cbn [chain] in C. cbn [climbs]. apply Hi. lia.
  - assert (I : In (i, f) p) by (rewrite Ep; apply in_or_app; right; left; reflexivity).
    destruct C as (Ei & Lt & C). assert (El : lower i = a) by (rewrite Ei; reflexivity). assert (Er : right i = EXC) by (rewrite Ei; reflexivity).
    pose proof (chain_le _ _ _ C) as Le. pose proof (Af _ I) as Aff. cbn [snd] in Aff.
    assert (Ep' : p = (pre ++ [(i, f)]) ++ r) by (rewrite <- app_assoc; exact Ep).
    assert (Nx : upper i <= hi -> exists j g r', r = (j, g) :: r' /\ (height g (dval (upper i)) == height f (dval (upper i)))%Q /\ (height f (dval (upper i)) <= 1)%Q).
    { intro U. destruct r as [|[j g] r']; [cbn [chain] in C; lia|]. exists j, g, r'. split; [reflexivity|].
      destruct (ct_joined p hi T pre i f j g r' Ep U) as (y0 & V1 & V2).
      assert (Ij : In (j, g) p) by (rewrite Ep; apply in_or_app; right; right; left; reflexivity).
      apply fn_is_height in V1; [|exact Aff]. apply fn_is_height in V2; [|exact (Af _ Ij)]. split; [lra|].
      destruct C as (Ej & Ltj & _). assert (lower j = upper i) by (rewrite Ej; reflexivity).
      rewrite V1, <- V2. apply (Le1 (upper i)); [unfold finite; lia|]. apply (At j g (upper i) Ij); [unfold finite; lia|lia]. }
    destruct (Z_le_gt_dec a hi) as [A|A].
    + destruct (Lo A) as (Hy & Y1). destruct f as [|v|m c|]; try contradiction; cbn [climbs].
      * unfold height in Hy. cbn [steepness] in Hy. split; [left; split; lra|]. split.
        -- destruct r as [|[j g] r']; [left; reflexivity|right]. destruct C as (_ & Ltj & C). pose proof (chain_le _ _ _ C). apply finite_noninf. unfold finite. lia.
        -- apply (IH (pre ++ [(i, FConst v)]) (upper i) y Ep' C); [lia| |].
           ++ intro U. destruct (Nx U) as (j & g & r' & -> & E & _). split; [|exact Y1]. rewrite E. unfold height. cbn [steepness]. lra.
           ++ intro U. assert (V := At i (FConst v) hi I ltac:(unfold finite; lia) ltac:(lia)). pose proof (plf_is_fun _ _ _ _ V One) as E. unfold height in E. cbn [steepness] in E. lra.
      * pose proof (Ri _ I) as (Mp & F1 & F2). cbn [fst] in F1, F2. pose proof (ct_rising p hi T i m c I) as Lh.
        unfold height in Hy. cbn [steepness] in Hy. assert (Dl : (dval (lower i) < dval (upper i))%Q) by (apply dval_lt; lia).
        assert (Hh : forall u w, (u < w -> m * u + c < m * w + c)%Q).
        { intros u w K. assert (0 < m * (w - u))%Q by (apply Qmult_lt_0_compat; lra). assert (m * (w - u) == m * w - m * u)%Q by ring. lra. }
        assert (Y : (y < 1)%Q).
        { rewrite El in *. destruct (Z_le_gt_dec (upper i) hi) as [U|U].
          - destruct (Nx U) as (j & g & r' & _ & _ & K). unfold height in K. cbn [steepness] in K. specialize (Hh _ _ Dl). lra.
          - assert (V := At i (FLin m c) hi I ltac:(unfold finite; lia) ltac:(lia)). pose proof (plf_is_fun _ _ _ _ V One) as E. unfold height in E. cbn [steepness] in E.
            assert (D : (dval a < dval hi)%Q) by (apply dval_lt; lia). specialize (Hh _ _ D). lra. }
        assert (Fa : finite a) by (rewrite <- El; exact F1).
        split; [exact (Sp i m c I)|]. split; [exact Y|]. split; [exact F1|]. split; [exact F2|]. split; [lia|]. split.
        { rewrite Ei. cbn [left]. unfold finite in Fa. destruct (Z.eqb_spec a (- ORD_INF)); [lia|reflexivity]. } split; [exact Er|]. split; [rewrite El; lra|].
        apply (IH (pre ++ [(i, FLin m c)]) (upper i) (m * dval (upper i) + c)%Q Ep' C); [lia| |].
        -- intro U. destruct (Nx U) as (j & g & r' & -> & E & K). unfold height in E at 2. unfold height in K. cbn [steepness] in E, K. split; assumption.
        -- intro U. assert (V := At i (FLin m c) hi I ltac:(unfold finite; lia) ltac:(lia)). pose proof (plf_is_fun _ _ _ _ V One) as E. unfold height in E. cbn [steepness] in E.
           assert (D : (dval hi < dval (upper i))%Q) by (apply dval_lt; lia). specialize (Hh _ _ D). lra.
    + assert (Fa : finite a) by (unfold finite; lia). assert (V := At i f a I Fa ltac:(lia)).
      assert (E : (height f (dval a) == 1)%Q). { pose proof (Le1 a _ Fa V). pose proof (pc_mono _ _ _ Pr hi a 1 _ ltac:(unfold finite; lia) Fa ltac:(lia) One V). lra. }
      destruct f as [|v|m c|]; try contradiction; cbn [climbs].
      * unfold height in E. cbn [steepness] in E. assert (Y := Hi ltac:(lia)). split; [right; split; lra|]. split.
        -- destruct r as [|[j g] r']; [left; reflexivity|right]. destruct C as (_ & Ltj & C). pose proof (chain_le _ _ _ C). apply finite_noninf. unfold finite. lia.
        -- apply (IH (pre ++ [(i, FConst v)]) (upper i) y Ep' C); [lia|intro; lia|intros _; exact Y].
      * pose proof (ct_rising p hi T i m c I). lia.
Qed.

Lemma inverse_eval : forall m c t, (0 < m)%Q -> exists x, fn_eval (inverse m c) t = Some x /\ (m * x + c == t)%Q.
Proof. intros m c t M. eexists. split; [reflexivity|]. cbn. field. lra. Qed.

Theorem ppf_inverse : forall p hi, spread_cdf p -> climbs_to p hi -> steep_cdf p ->
  exists l, ppf_of p = Ok l
  /\ (forall y, (0 <= y <= 1)%Q -> exists x, ppf_eval l y = Some x /\ cdf_real p x y)
  /\ (forall i m c x y, In (i, FLin m c) p -> real_mem x i -> (y == m * x + c)%Q -> (y <= 1)%Q -> exists x', ppf_eval l y = Some x' /\ (x' == x)%Q)
  /\ (forall y, (y < 0 \/ 1 + (1 # 4503599627370496) <= y)%Q -> ppf_eval l y = None).
Proof.
  intros p hi S T Sp. destruct (sp_first p S) as (i0 & p' & Ep). pose proof (sp_chain p S) as Ch.
  assert (Cl : climbs 0 p).
  { apply (cdf_climbs p hi S T Sp p [] (- ORD_INF) 0%Q eq_refl Ch); [lia| |].
    - intros _. rewrite Ep. unfold height. cbn [steepness]. split; lra.
    - destruct (ct_one p hi T) as (Fh & _). unfold finite in Fh. lia. }
  destruct (ppf_loop_spec p 0 0 Cl) as (l & El & Nl & Fl & H1 & H2 & H3); [lra|reflexivity|].
  (* the first piece is the leading 0 *)
  assert (Hd : exists u l', l = (u, FUndef) :: l' /\ (u == 0)%Q /\ l' <> []).
  { rewrite Ep in El, Cl. cbn [climbs] in Cl. destruct Cl as (_ & Ui & Cl).
    assert (Uf : isinf (upper i0) = false). { destruct Ui as [->|U]; [cbn in Cl; lra|exact U]. }
    cbn [ppf_loop fn_is_invertible intercept] in El. change (Qz 0) with true in El. cbn [bind] in El. unfold eval_bound in El. rewrite Uf in El. cbn [eval_num fn_eval bind] in El.
    destruct (ppf_loop_spec p' 0 (Qmin2 ope 0) Cl) as (l' & El' & Nl' & _); [lra|vm_compute; reflexivity|]. rewrite El' in El. cbn [bind] in El. injection El as <-.
    eexists _, l'. split; [reflexivity|]. split; [vm_compute; reflexivity|exact Nl']. }
  destruct Hd as (u0 & l' & -> & U0 & Nl').
  assert (Fin : ppf_finish ((u0, FUndef) :: l') = (Some u0, FUndef) :: ppf_finish l') by (destruct l'; [congruence|reflexivity]).
  assert (St : forall t lo, (0 <= t)%Q -> ppf_at (ppf_finish ((u0, FUndef) :: l')) None t = ppf_at (ppf_finish ((u0, FUndef) :: l')) (Some lo) t).
  { intros t lo Ht. rewrite Fin. cbn [ppf_at]. unfold Qltb. destruct (Qleb_spec u0 t) as [_|K]; [|lra]. cbn [negb]. rewrite !andb_false_r. reflexivity. }
  set (L := ppf_finish ((u0, FUndef) :: l')) in *.
  assert (Own : forall t i m c, In (i, FLin m c) p -> owns i m c t -> (t < ope)%Q -> ppf_at L None t = Some (inverse m c)).
  { intros t i m c I O Lt. pose proof (climbs_above p 0 i m c Cl I). unfold owns in O. rewrite (St t 0%Q) by lra. apply (H1 t 0%Q (Qeq_refl 0) i m c I O Lt). }
  assert (At1 : exists pre i m c r', p = pre ++ (i, FLin m c) :: r' /\ (m * dval (lower i) + c < 1 <= m * dval (upper i) + c)%Q /\ climbs (m * dval (upper i) + c) r' /\ ppf_at L None 1 = Some (inverse m c)).
  { destruct (H2 0%Q (Qeq_refl 0)) as (pre & i & m & c & r' & A1 & A2 & A3 & A4). exists pre, i, m, c, r'. repeat (split; [assumption|]). rewrite (St 1%Q 0%Q) by lra. exact A4. }
  assert (Pos : forall i m c, In (i, FLin m c) p -> (0 < m)%Q) by (intros i m c I; pose proof (Sp i m c I); lra).
  exists L. split; [|split; [|split]].
  - unfold ppf_of.
    assert (Len : exists a b c r, p = a :: b :: c :: r). { pose proof (sp_len p S). destruct p as [|a [|b [|c r]]]; cbn [length] in *; try lia. eauto. }
    destruct Len as ([i1 f1] & [i2 f2] & [i3 f3] & r & Ep3). rewrite Ep3 in *. rewrite El. cbn [bind]. fold L.
    assert (E1 : ppf_eval L ope = None). { unfold ppf_eval. rewrite (St ope 0%Q) by (pose proof ope_gt; lra). rewrite (H3 ope 0%Q (Qeq_refl 0) (Qle_refl ope)). reflexivity. }
    rewrite E1. destruct At1 as (pre & i & m & c & r' & A1 & _ & _ & A4). unfold ppf_eval. rewrite A4. destruct (inverse_eval m c 1) as (x & E & _); [apply (Pos i m c); rewrite A1; apply in_or_app; right; left; reflexivity|]. rewrite E. reflexivity.
  - intros y B. destruct (Qlt_le_dec y 1) as [Y|Y].
    + destruct (climbs_owner p 0 y Cl) as (i & m & c & I & O & F1 & F2 & _); [lra|]. unfold ppf_eval. rewrite (Own y i m c I O) by (pose proof ope_gt; lra).
      destruct (inverse_eval m c y (Pos _ _ _ I)) as (x & E & V). exists x. split; [exact E|]. exists i, (FLin m c). split; [exact I|]. pose proof (Pos _ _ _ I) as M. unfold owns in O. split.
      * unfold real_mem. rewrite F1, F2. split; right.
        -- destruct (Qlt_le_dec x (dval (lower i))) as [K|K]; [|exact K]. exfalso. assert (0 < m * (dval (lower i) - x))%Q by (apply Qmult_lt_0_compat; lra). assert (m * (dval (lower i) - x) == m * dval (lower i) - m * x)%Q by ring. lra.
        -- destruct (Qlt_le_dec x (dval (upper i))) as [K|K]; [exact K|]. exfalso. assert (0 <= m * (x - dval (upper i)))%Q by (apply Qmult_le_0_compat; lra). assert (m * (x - dval (upper i)) == m * x - m * dval (upper i))%Q by ring. lra.
      * unfold height. cbn [steepness]. exact V.
    + assert (Y1 : (y == 1)%Q) by lra. destruct At1 as (pre & i & m & c & r' & A1 & A2 & A3 & A4).
      assert (I : In (i, FLin m c) p) by (rewrite A1; apply in_or_app; right; left; reflexivity). pose proof (Pos _ _ _ I) as M.
      assert (A4' : ppf_at L None y = Some (inverse m c)).
      { rewrite <- A4. clear -Y1. generalize (@None Q). clearbody L. induction L as [|[u g] L IH]; intro lo; [reflexivity|]. cbn [ppf_at].
        assert (E1 : match lo with Some a => Qle_bool a y | None => true end = match lo with Some a => Qle_bool a 1 | None => true end) by (destruct lo; [rewrite Y1; reflexivity|reflexivity]).
        assert (E2 : match u with Some b => Qltb y b | None => true end = match u with Some b => Qltb 1 b | None => true end) by (destruct u; [unfold Qltb; rewrite Y1; reflexivity|reflexivity]).
        rewrite E1, E2, IH. reflexivity. }
      unfold ppf_eval. rewrite A4'. destruct (inverse_eval m c y M) as (x & E & V). exists x. split; [exact E|].
      rewrite A1 in Ch. apply chain_app_inv in Ch. destruct Ch as (b & _ & (Ei & Lt & Ch)). pose proof (sp_rise p S) as Ri. rewrite Forall_forall in Ri. specialize (Ri _ I). cbn [fst snd] in Ri. destruct Ri as (_ & F1 & F2).
      assert (Li : left i = INC). { rewrite Ei. cbn [left]. rewrite Ei in F1. cbn [lower] in F1. unfold finite in F1. destruct (Z.eqb_spec b (- ORD_INF)); [lia|reflexivity]. } assert (Rr : right i = EXC) by (rewrite Ei; reflexivity).
      assert (Xl : (dval (lower i) <= x)%Q). { destruct (Qlt_le_dec x (dval (lower i))) as [K|K]; [|exact K]. exfalso. assert (0 < m * (dval (lower i) - x))%Q by (apply Qmult_lt_0_compat; lra). assert (m * (dval (lower i) - x) == m * dval (lower i) - m * x)%Q by ring. lra. }
      destruct (Qlt_le_dec x (dval (upper i))) as [K|K].
      * exists i, (FLin m c). split; [exact I|]. split; [|unfold height; cbn [steepness]; exact V]. unfold real_mem. rewrite Li, Rr. split; right; assumption.
      * destruct r' as [|[j g] r'']; [cbn [chain] in Ch; unfold finite in F2; lia|]. assert (Ij : In (j, g) p) by (rewrite A1; apply in_or_app; right; right; left; reflexivity).
        assert (Hx : (m * dval (upper i) + c == 1)%Q). { assert (0 <= m * (x - dval (upper i)))%Q by (apply Qmult_le_0_compat; lra). assert (m * (x - dval (upper i)) == m * x - m * dval (upper i))%Q by ring. lra. }
        assert (Xe : (x == dval (upper i))%Q). { assert (Z0 : (m * (x - dval (upper i)) == 0)%Q) by (assert (m * (x - dval (upper i)) == m * x - m * dval (upper i))%Q by ring; lra). apply Qmult_integral in Z0. destruct Z0; lra. }
        exists j, g. split; [exact Ij|]. destruct Ch as (Ej & Ltj & _). unfold finite in F2. assert (Lj : lower j = upper i) by (rewrite Ej; reflexivity). assert (Lfj : left j = INC) by (rewrite Ej; cbn [left]; destruct (Z.eqb_spec (upper i) (- ORD_INF)); [lia|reflexivity]). assert (Rj : right j = EXC) by (rewrite Ej; reflexivity).
        split.
        -- unfold real_mem. rewrite Lfj, Rj, Lj. split; [right; lra|]. right. rewrite Xe. apply dval_lt. exact Ltj.
        -- cbn [climbs] in A3. destruct g as [|v|m' c'|]; try contradiction; [|destruct A3 as (_ & K' & _); lra]. destruct A3 as (D & _). unfold height. cbn [steepness]. destruct D; lra.
  - intros i m c x y I Mx V Y. pose proof (Pos _ _ _ I) as M.
    assert (Cx : exists b r, chain b ((i, FLin m c) :: r) ORD_INF). { apply in_split in I. destruct I as (pre & r & E). rewrite E in Ch. apply chain_app_inv in Ch. destruct Ch as (b & _ & Ch). eauto. }
    destruct Cx as (b & r & (Ei & Lt & _)). pose proof (sp_rise p S) as Ri. rewrite Forall_forall in Ri. specialize (Ri _ I). cbn [fst snd] in Ri. destruct Ri as (_ & F1 & F2). unfold finite in F1, F2.
    assert (Li : left i = INC). { rewrite Ei. cbn [left]. rewrite Ei in F1. cbn [lower] in F1. destruct (Z.eqb_spec b (- ORD_INF)); [lia|reflexivity]. } assert (Rr : right i = EXC) by (rewrite Ei; reflexivity).
    unfold real_mem in Mx. rewrite Li, Rr in Mx. destruct Mx as ([K|K] & [K'|K']); try lia.
    assert (O : owns i m c y).
    { unfold owns. rewrite V. assert (0 <= m * (x - dval (lower i)))%Q by (apply Qmult_le_0_compat; lra). assert (m * (x - dval (lower i)) == m * x - m * dval (lower i))%Q by ring.
      assert (0 < m * (dval (upper i) - x))%Q by (apply Qmult_lt_0_compat; lra). assert (m * (dval (upper i) - x) == m * dval (upper i) - m * x)%Q by ring. lra. }
    unfold ppf_eval. rewrite (Own y i m c I O) by (pose proof ope_gt; lra). destruct (inverse_eval m c y M) as (x' & E & V'). exists x'. split; [exact E|].
    assert (Z0 : (m * (x' - x) == 0)%Q) by (assert (m * (x' - x) == m * x' - m * x)%Q by ring; lra). apply Qmult_integral in Z0. destruct Z0; lra.
  - intros y [Y|Y].
    + unfold ppf_eval. rewrite Fin. cbn [ppf_at]. unfold Qltb. destruct (Qleb_spec u0 y) as [K|_]; [lra|]. reflexivity.
    + unfold ppf_eval. fold ope in Y. rewrite (St y 0%Q) by (pose proof ope_gt; lra). rewrite (H3 y 0%Q (Qeq_refl 0) Y). reflexivity.
Qed.
