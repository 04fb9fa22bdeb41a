(** Numeric distributions as leaf distributions of a tree: the family of operations and
    the contract [measured] which [infer] relies on. *)
Require Import ZArith QArith Qabs Lqa Bool List Arith Lia Sorted.
Require Import Verif.Base Verif.FloatLine Verif.FloatVal Verif.IntervalModel Verif.IntervalSpec Verif.IntervalProofs Verif.IntervalExact Verif.NumBase
  Verif.FunctionModel Verif.FunctionSpec Verif.NumericModel Verif.NumericSpec Verif.NumericFit Verif.NumericProb Verif.NumericProps Verif.TreeModel Verif.TreeSpec.
Import ListNotations.
Open Scope Z_scope.

(** ** The family *)

(** [a.intersection(b)], intervals.pyx:948-995 and 415-432.  A ContinuousSet takes only a
    ContinuousSet (TypeError otherwise) and the constructor may raise; an operation of a
    family cannot raise, so that the model yields the empty set there.  The contract
    below excludes both cases. *)
Definition n_inter (a b : nset) : nset :=
  match a, b with
  | NC x, NC y => match cs_intersection x y with Ok c => NC c | Err _ => NC EMPTY end
  | NC _, NR _ => NC EMPTY
  | NR l, _ => match rs_intersection l b with Ok r => r | Err _ => NC EMPTY end
  end.
(** intervals.pyx:940-946 and 342-351 (isdisjoint). *)
Definition n_disj (a b : nset) : bool :=
  match a with NC x => negb (cs_intersects_ns x b) | NR l => rs_isdisjoint l b end.

(** [pdf.eval(x)] (functions.pyx:1104-1108); 0 outside all pieces is NaN in the code,
    which cannot happen as the pieces cover the doubles. *)
Definition density_at (cdf : plf) (x : Z) : res dens :=
  do p <- pdf_of cdf;
  match find (fun s : cs * dens => piece_has (fst s) x) p with Some s => Ok (snd s) | None => Err ArithmeticError end.
(** Infinite densities count as 1: trees.py:1149-1150, 541-542, 590-592. *)
Definition capped (v : dens) : Q := match v with DFin q => q | DInf => 1 end.
Definition n_like (cdf : plf) (s : nset) : res Q :=
  match s with
  | NC c => match cs_size c with
            | Some 1%Z => do v <- density_at cdf (lower c); Ok (capped v)
            | _ => p_interval cdf c
            end
  | NR _ => p_set cdf s
  end.
(** trees.py:505-548 (_numeric_probability) without [min_distances]. *)
Definition n_prob1 (cdf : plf) (c : cs) : res Q :=
  match cs_size c with
  | Some 0%Z => Ok 0%Q
  | Some 1%Z => do v <- density_at cdf (lower c); Ok (capped v)
  | _ => p_interval cdf c
  end.
Definition n_prob (cdf : plf) (s : nset) : res Q :=
  match s with NC c => n_prob1 cdf c | NR l => sum_res (map (n_prob1 cdf) l) end.

(** [d_pdf] of an infinite density and [d_jaccard] (numeric.py:600-623) are not modelled;
    infinite likelihoods in [mpe] count as 1 (trees.py:452-455). *)
Definition numeric : family := {|
  value := Z;
  vset := nset;
  dist := plf;
  inter := n_inter;
  disj := n_disj;
  single := fun x => NC (CS x x INC INC);
  (* trees.py:179: the lower bound never belongs to it, the upper bound always does *)
  v_in := fun s x => match s with NC c => (lower c <? x) && (x <=? upper c) | NR l => rs_contains_value l x end;
  d_p := p_set;
  d_prob := n_prob;
  d_like := n_like;
  d_pdf := fun d x => do v <- density_at d x; match v with DFin q => Ok q | DInf => Err ArithmeticError end;
  d_lik := fun d x => do v <- density_at d x; Ok (capped v);
  d_crop := crop_set;
  d_merge := merge_cdf;
  d_mpe := fun d => do sv <- mpe_of d; Ok (fst sv, capped (snd sv));
  d_expectation := fun d => do x <- expectation_of d; Ok (inl x);
  d_moment := fun order center d => moment_of d order center;
  d_jaccard := fun _ _ => None
|}.

(** trees.py:98: [R]. *)
Definition nfull (v : var) : nset := NC RR.

(** ** Intervals with bounds from a grid

    The bounds that occur in the splits and queries of one variable: no two of them are
    neighbouring doubles. *)
Definition grid := Z -> Prop.
Record gridded (G : grid) : Prop := {
  g_inf : G (- ORD_INF) /\ G ORD_INF;
  g_gap : forall x y, G x -> G y -> x < y -> x + 1 < y
}.
Definition on_grid (G : grid) (c : cs) : Prop := wf c /\ (c = EMPTY \/ G (lower c) /\ G (upper c)).

Lemma mem_ends : forall c x, wf c -> cs_mem x c <-> lo1 c <= x <= hi1 c.
Proof. intros c x W. rewrite mem_lo1. pose proof (wf_lo1 c W). unfold finite. lia. Qed.
Lemma ends_close : forall c, lower c <= lo1 c <= lower c + 1 /\ upper c - 1 <= hi1 c <= upper c.
Proof. intro c. unfold lo1, hi1. destruct (left c), (right c); lia. Qed.

Definition cut (a b : cs) : cs := match cs_intersection a b with Ok c => c | Err _ => EMPTY end.
Lemma cut_mem : forall a b, wf a -> wf b -> forall x, cs_mem x (cut a b) <-> cs_mem x a /\ cs_mem x b.
Proof.
  intros a b (A & _) (B & _). unfold cut. destruct (intersection_exact a b A B) as (r & -> & H). exact H.
Qed.
Lemma cut_bounds : forall a b, wf a -> wf b -> cut a b = EMPTY \/
  (lower (cut a b) = Z.max (lower a) (lower b) /\ upper (cut a b) = Z.min (upper a) (upper b) /\ lower (cut a b) <= upper (cut a b) /\
   (lower a = lower (cut a b) -> left a = EXC -> left (cut a b) = EXC) /\ (lower b = lower (cut a b) -> left b = EXC -> left (cut a b) = EXC) /\
   (upper a = upper (cut a b) -> right a = EXC -> right (cut a b) = EXC) /\ (upper b = upper (cut a b) -> right b = EXC -> right (cut a b) = EXC)).
Proof.
  intros a b Wa Wb. unfold cut, cs_intersection, cs_intersection_lr. destruct (cs_intersects a b); cbn [negb]; [|left; reflexivity].
  unfold mk_cs. destruct (Z.ltb_spec (Z.min (upper a) (upper b)) (Z.max (lower a) (lower b))) as [Q|Q]; [left; reflexivity|]. cbn [bind set_left set_right]. right. cbn [lower upper left right].
  split; [reflexivity|]. split; [reflexivity|]. split; [lia|]. clear. unfold set_right, set_left.
  repeat split; intros E F; destruct (Z.eqb_spec (lower b) (lower a)), (Z.eqb_spec (upper b) (upper a)), (Z.ltb_spec (lower b) (lower a)), (Z.ltb_spec (upper a) (upper b)); cbn [left right flag_max]; rewrite ?F; try lia; cbn; try reflexivity; destruct (left a), (left b), (right a), (right b); try reflexivity; try discriminate; try lia.
Qed.

Lemma wf_empty : wf EMPTY.
Proof. unfold wf, EMPTY, moderate. cbn [lower upper left right]. pose proof ord_facts. repeat split; lia. Qed.

Section Grid.
  Variable G : grid.
  Hypothesis GG : gridded G.

  Lemma cut_grid : forall a b, on_grid G a -> on_grid G b -> on_grid G (cut a b).
  Proof.
    intros a b [Wa Ga] [Wb Gb]. pose proof ord_facts as O. destruct (cut_bounds a b Wa Wb) as [->|(El & Eu & Le & F1 & F2 & F3 & F4)]; [split; [apply wf_empty|left; reflexivity]|].
    assert (Em : a = EMPTY \/ b = EMPTY -> cut a b = EMPTY).
    { clear - Wa Wb O. intros [->| ->].
      - unfold cut, cs_intersection, cs_intersection_lr. destruct (cs_intersects EMPTY b) eqn:I; cbn [negb]; [|reflexivity]. unfold cs_intersects in I. destruct (cs_isempty b); [discriminate|].
        cbn [EMPTY lower upper left right flag_eqb] in *. destruct (Z.ltb_spec 0 (lower b)); [discriminate|]. destruct (Z.ltb_spec (upper b) 0); [discriminate|]. cbn [orb] in I.
        destruct (Z.eqb_spec 0 (upper b)); [rewrite orb_true_r in I; discriminate|]. cbn [andb] in I. destruct (Z.eqb_spec 0 (lower b)); [discriminate|].
        rewrite Z.max_l, Z.min_l by lia. unfold mk_cs. cbn [Z.ltb bind lower upper]. change (0 ?= 0) with Eq. cbn [bind lower upper].
        destruct (Z.eqb_spec (lower b) 0); [lia|]. destruct (Z.eqb_spec (upper b) 0); [lia|]. destruct (Z.ltb_spec (lower b) 0); [|lia]. destruct (Z.ltb_spec 0 (upper b)); [|lia]. reflexivity.
      - unfold cut, cs_intersection, cs_intersection_lr, cs_intersects. reflexivity. }
    destruct Ga as [->|[Ga1 Ga2]]; [rewrite Em by auto; split; [apply wf_empty|left; reflexivity]|]. destruct Gb as [->|[Gb1 Gb2]]; [rewrite Em by auto; split; [apply wf_empty|left; reflexivity]|].
    assert (Hl : lower (cut a b) = lower a \/ lower (cut a b) = lower b) by lia. assert (Hu : upper (cut a b) = upper a \/ upper (cut a b) = upper b) by lia.
    split.
    - destruct Wa as (A1 & A2 & A3 & A4 & A5 & A6 & A7), Wb as (B1 & B2 & B3 & B4 & B5 & B6 & B7). split; [exact Le|].
      split; [destruct Hl as [-> | ->]; assumption|]. split; [destruct Hu as [-> | ->]; assumption|]. split; [lia|]. split; [lia|]. split; intro E.
      + destruct Hl as [H|H]; [apply F1; [congruence|apply A6; congruence]|apply F2; [congruence|apply B6; congruence]].
      + destruct Hu as [H|H]; [apply F3; [congruence|apply A7; congruence]|apply F4; [congruence|apply B7; congruence]].
    - right. split; [destruct Hl as [-> | ->]; assumption|destruct Hu as [-> | ->]; assumption].
  Qed.

  Lemma empty_EMPTY : cs_isempty EMPTY = true.
  Proof. reflexivity. Qed.
  Lemma grid_bounds : forall c, on_grid G c -> cs_isempty c = false -> wf c /\ G (lower c) /\ G (upper c).
  Proof. intros c [W [->|[A B]]] E; [discriminate|]. auto. Qed.

  Lemma sub_bounds : forall a b, on_grid G a -> on_grid G b -> cs_isempty a = false -> (forall x, cs_mem x a -> cs_mem x b) -> lower b <= lower a /\ upper a <= upper b /\ cs_isempty b = false.
  Proof.
    intros a b Ga Gb Ea H. destruct (grid_bounds a Ga Ea) as (Wa & G1 & G2). pose proof (proj1 (isempty_lo1_f a Wa) Ea) as Na.
    assert (Wb : wf b) by apply Gb. assert (M0 : cs_mem (lo1 a) a /\ cs_mem (hi1 a) a) by (rewrite !mem_ends by exact Wa; lia). destruct M0 as [M1 M2].
    apply H in M1, M2. rewrite mem_ends in M1, M2 by exact Wb.
    assert (Eb : cs_isempty b = false) by (apply (isempty_lo1_f b Wb); lia). destruct (grid_bounds b Gb Eb) as (_ & G3 & G4).
    pose proof (ends_close a). pose proof (ends_close b). pose proof (g_gap G GG (lower a) (lower b) G1 G3). pose proof (g_gap G GG (upper b) (upper a) G4 G2). repeat split; try lia. exact Eb.
  Qed.

  Lemma cut_empty : forall a b, on_grid G a -> on_grid G b -> cs_isempty a = false -> cs_isempty b = false -> cs_isempty (cut a b) = true ->
    Z.min (upper a) (upper b) <= Z.max (lower a) (lower b).
  Proof.
    intros a b Ga Gb Ea Eb Ec. destruct (grid_bounds a Ga Ea) as (Wa & G1 & G2). destruct (grid_bounds b Gb Eb) as (Wb & G3 & G4).
    destruct (Z.le_gt_cases (Z.min (upper a) (upper b)) (Z.max (lower a) (lower b))) as [H|H]; [exact H|]. exfalso.
    pose proof (ends_close a). pose proof (ends_close b).
    assert (Gap : Z.max (lower a) (lower b) + 1 < Z.min (upper a) (upper b)).
    { apply (g_gap G GG); [destruct (Z.max_spec (lower a) (lower b)) as [[_ ->]|[_ ->]]; assumption|destruct (Z.min_spec (upper a) (upper b)) as [[_ ->]|[_ ->]]; assumption|exact H]. }
    pose proof (proj1 (isempty_lo1_f a Wa) Ea). pose proof (proj1 (isempty_lo1_f b Wb) Eb).
    apply (isempty_sound _ Ec (Z.max (lower a) (lower b) + 1)). apply cut_mem; [assumption..|]. rewrite !mem_ends by assumption. lia.
  Qed.
End Grid.

(** ** Probabilities of intervals *)

(** A numeric distribution: a cdf which has no jump at any bound of the grid, or a
    single value. *)
Definition smooth (G : grid) (p : plf) : Prop := line_cdf p /\ jump_off p G.
Definition ok_numeric (G : grid) (p : plf) : Prop := smooth G p \/ exists x, p = dirac x /\ Z.abs x < ORD_53.

Definition np (p : plf) (c : cs) : Q := match p_interval p c with Ok q => q | Err _ => 0%Q end.

Lemma wf_bounded : forall c, wf c -> bounded c.
Proof. intros c (A & B & C & D & E & F & H). unfold bounded, moderate in *. pose proof ord_facts. repeat split; try assumption; lia. Qed.

(** The values of the cdf as a function. *)
Definition cdfv (p : plf) (x : Z) : Q :=
  if x =? - ORD_INF then 0%Q else if x =? ORD_INF then 1%Q else match cdf_num p x with Ok v => v | Err _ => 0%Q end.
Lemma cdfv_at : forall p x, line_cdf p -> - ORD_INF <= x <= ORD_INF -> cdf_at p x (cdfv p x).
Proof.
  intros p x L R. unfold cdfv. destruct (Z.eqb_spec x (- ORD_INF)) as [E|E]; [left; split; [exact E|reflexivity]|].
  destruct (Z.eqb_spec x ORD_INF) as [E'|E']; [right; left; split; [exact E'|reflexivity]|].
  destruct (ln_proper _ L) as (lo & hi & Pr). destruct (cdf_at_ex p lo hi x Pr R) as (y & Hy & _). assert (F : finite x) by (unfold finite; lia).
  destruct (cdf_at_eval p x y F Hy) as (v & -> & V). apply (cdf_at_wd p x y); [symmetry; exact V|exact Hy].
Qed.
Lemma cdfv_mono : forall p x y, line_cdf p -> - ORD_INF <= x -> x <= y -> y <= ORD_INF -> (0 <= cdfv p x /\ cdfv p x <= cdfv p y /\ cdfv p y <= 1)%Q.
Proof.
  intros p x y L A B C. destruct (ln_proper _ L) as (lo & hi & Pr). pose proof (cdfv_at p x L ltac:(lia)) as Hx. pose proof (cdfv_at p y L ltac:(lia)) as Hy.
  destruct (cdf_at_ex p lo hi x Pr ltac:(lia)) as (u & Hu & U). destruct (cdf_at_ex p lo hi y Pr ltac:(lia)) as (v & Hv & V).
  pose proof (cdf_at_fun _ _ _ _ Hx Hu). pose proof (cdf_at_fun _ _ _ _ Hy Hv). pose proof (cdf_at_mono p lo hi x y _ _ Pr B Hx Hy). lra.
Qed.

Lemma np_empty : forall G p c, ok_numeric G p -> wf c -> cs_isempty c = true -> (np p c == 0)%Q.
Proof.
  intros G p c [[L _]|(x & -> & M)] W E; unfold np.
  - rewrite (p_empty p c (ln_affine _ L) (line_length _ L) E). reflexivity.
  - destruct (dirac_p x c M (wf_bounded c W)) as (q & -> & _ & N). apply N. intro I. exact (isempty_sound c E x I).
Qed.
Lemma np_smooth : forall G p c, smooth G p -> on_grid G c -> cs_isempty c = false -> p_interval p c = Ok (np p c) /\ (np p c == cdfv p (upper c) - cdfv p (lower c))%Q.
Proof.
  intros G p c [L N] Gc E. destruct (grid_bounds G c Gc E) as (W & _ & Gu). pose proof (wf_bounded c W) as B. unfold np. pose proof B as (B1 & B2 & B3 & _).
  destruct (p_interval_off p c (cdfv p (lower c)) (cdfv p (upper c)) L) as (q & -> & H); try assumption; [|apply cdfv_at; [exact L|lia]..|split; [reflexivity|exact H]].
  intros i f y y' I S0 Hy Hy'. destruct (N i f y y' I S0 Hy Hy') as [H|[H R]]; [left; exact H|right; split; [|exact R]]. intro K. apply H. rewrite K. exact Gu.
Qed.
Lemma np_dirac : forall x c, Z.abs x < ORD_53 -> wf c -> p_interval (dirac x) c = Ok (np (dirac x) c) /\ (cs_mem x c -> np (dirac x) c == 1)%Q /\ (~ cs_mem x c -> np (dirac x) c == 0)%Q.
Proof. intros x c M W. unfold np. destruct (dirac_p x c M (wf_bounded c W)) as (q & -> & H). split; [reflexivity|exact H]. Qed.
Lemma np_ok : forall G p c, ok_numeric G p -> on_grid G c -> p_interval p c = Ok (np p c).
Proof.
  intros G p c [S|(x & -> & M)] Gc; [|apply (np_dirac x c M (proj1 Gc))]. destruct (cs_isempty c) eqn:E; [|apply (np_smooth G p c S Gc E)].
  unfold np. destruct S as [L _]. rewrite (p_empty p c (ln_affine _ L) (line_length _ L) E). reflexivity.
Qed.

Lemma dirac_or : forall x c, Z.abs x < ORD_53 -> wf c -> (cs_mem x c /\ np (dirac x) c == 1)%Q \/ (~ cs_mem x c /\ np (dirac x) c == 0)%Q.
Proof.
  intros x c M W. destruct (np_dirac x c M W) as (_ & A & B). assert (D : cs_mem x c \/ ~ cs_mem x c).
  { rewrite mem_ends by exact W. lia. }
  destruct D; [left|right]; auto.
Qed.

Section Measure.
  Variable G : grid.
  Hypothesis GG : gridded G.

  Lemma np_mono : forall p a b, ok_numeric G p -> on_grid G a -> on_grid G b -> (forall x, cs_mem x a -> cs_mem x b) -> (0 <= np p a /\ np p a <= np p b)%Q.
  Proof.
    intros p a b Op Ga Gb H. assert (Wa : wf a) by apply Ga. assert (Wb : wf b) by apply Gb. destruct Op as [S|(x & -> & M)].
    - pose proof (wf_bounded a Wa) as (A1 & A2 & A3 & _). pose proof (wf_bounded b Wb) as (B1 & B2 & B3 & _). pose proof (proj1 S) as L.
      assert (Pb : (0 <= np p b)%Q).
      { destruct (cs_isempty b) eqn:Eb; [rewrite (np_empty G p b (or_introl S) Wb Eb); lra|]. destruct (np_smooth G p b S Gb Eb) as [_ ->].
        pose proof (cdfv_mono p (lower b) (upper b) L ltac:(lia) ltac:(lia) ltac:(lia)). lra. }
      destruct (cs_isempty a) eqn:Ea; [rewrite (np_empty G p a (or_introl S) Wa Ea); lra|].
      destruct (sub_bounds G GG a b Ga Gb Ea H) as (S1 & S2 & Eb). destruct (np_smooth G p a S Ga Ea) as [_ ->]. destruct (np_smooth G p b S Gb Eb) as [_ ->].
      pose proof (cdfv_mono p (lower b) (lower a) L ltac:(lia) ltac:(lia) ltac:(lia)). pose proof (cdfv_mono p (lower a) (upper a) L ltac:(lia) ltac:(lia) ltac:(lia)).
      pose proof (cdfv_mono p (upper a) (upper b) L ltac:(lia) ltac:(lia) ltac:(lia)). lra.
    - destruct (dirac_or x a M Wa) as [[Ia ->]|[Na ->]]; destruct (dirac_or x b M Wb) as [[Ib ->]|[Nb ->]]; try lra. exfalso. apply Nb, H, Ia.
  Qed.
  Lemma np_ext : forall p a b, ok_numeric G p -> on_grid G a -> on_grid G b -> (forall x, cs_mem x a <-> cs_mem x b) -> (np p a == np p b)%Q.
  Proof.
    intros p a b Op Ga Gb H. destruct (np_mono p a b Op Ga Gb (fun x => proj1 (H x))). destruct (np_mono p b a Op Gb Ga (fun x => proj2 (H x))). lra.
  Qed.

  Lemma np_sure : forall p a b, ok_numeric G p -> on_grid G a -> on_grid G b -> (np p b == 1)%Q -> (np p (cut a b) == np p a)%Q.
  Proof.
    intros p a b Op Ga Gb One. assert (Wa : wf a) by apply Ga. assert (Wb : wf b) by apply Gb. pose proof (cut_grid G a b Ga Gb) as Gc. assert (Wc : wf (cut a b)) by apply Gc.
    pose proof (cut_mem a b Wa Wb) as Mc. destruct Op as [S|(x & -> & M)].
    - pose proof (proj1 S) as L. pose proof (wf_bounded a Wa) as (A1 & A2 & A3 & _). pose proof (wf_bounded b Wb) as (B1 & B2 & B3 & _).
      destruct (cs_isempty b) eqn:Eb; [rewrite (np_empty G p b (or_introl S) Wb Eb) in One; lra|].
      destruct (cs_isempty a) eqn:Ea.
      { rewrite (np_empty G p a (or_introl S) Wa Ea). apply (np_empty G p _ (or_introl S) Wc). apply (isempty_spec _ Wc). intros x I. apply Mc in I. exact (isempty_sound a Ea x (proj1 I)). }
      destruct (np_smooth G p b S Gb Eb) as [_ Hb]. rewrite Hb in One. destruct (np_smooth G p a S Ga Ea) as [_ Ha].
      pose proof (cdfv_mono p (lower b) (upper b) L ltac:(lia) ltac:(lia) ltac:(lia)) as Mb. pose proof (cdfv_mono p (lower a) (upper a) L ltac:(lia) ltac:(lia) ltac:(lia)) as Ma.
      destruct (cs_isempty (cut a b)) eqn:Ec.
      + rewrite (np_empty G p _ (or_introl S) Wc Ec), Ha. pose proof (cut_empty G GG a b Ga Gb Ea Eb Ec) as K.
        assert (D : upper a <= lower b \/ upper b <= lower a \/ upper a <= lower a \/ upper b <= lower b) by lia. destruct D as [D|[D|[D|D]]].
        * pose proof (cdfv_mono p (upper a) (lower b) L ltac:(lia) ltac:(lia) ltac:(lia)). lra.
        * pose proof (cdfv_mono p (upper b) (lower a) L ltac:(lia) ltac:(lia) ltac:(lia)). lra.
        * replace (upper a) with (lower a) by lia. lra.
        * exfalso. replace (upper b) with (lower b) in One by lia. lra.
      + destruct (np_smooth G p _ S Gc Ec) as [_ ->]. rewrite Ha. destruct (cut_bounds a b Wa Wb) as [E|(-> & -> & _)]; [rewrite E in Ec; discriminate|].
        assert (E1 : (cdfv p (Z.min (upper a) (upper b)) == cdfv p (upper a))%Q).
        { destruct (Z.min_spec (upper a) (upper b)) as [[_ ->]|[D ->]]; [reflexivity|]. pose proof (cdfv_mono p (upper b) (upper a) L ltac:(lia) ltac:(lia) ltac:(lia)). lra. }
        assert (E2 : (cdfv p (Z.max (lower a) (lower b)) == cdfv p (lower a))%Q).
        { destruct (Z.max_spec (lower a) (lower b)) as [[D ->]|[_ ->]]; [|reflexivity]. pose proof (cdfv_mono p (lower a) (lower b) L ltac:(lia) ltac:(lia) ltac:(lia)). lra. }
        rewrite E1, E2. reflexivity.
    - destruct (dirac_or x b M Wb) as [[Ib _]|[_ Z]]; [|lra]. destruct (dirac_or x a M Wa) as [[Ia ->]|[Na ->]]; destruct (dirac_or x _ M Wc) as [[Ic ->]|[Nc ->]]; try reflexivity; exfalso.
      + apply Nc, Mc. auto.
      + apply Mc in Ic. apply Na, Ic.
  Qed.
End Measure.

Lemma wf_RR : wf RR.
Proof. unfold wf, RR, moderate. cbn [lower upper left right]. pose proof ord_facts. repeat split; lia. Qed.
Lemma np_full : forall G p, ok_numeric G p -> (np p RR == 1)%Q.
Proof.
  intros G p [S|(x & -> & M)].
  - destruct (p_whole p (proj1 S)) as (q & E & Q). unfold np. rewrite E. exact Q.
  - destruct (np_dirac x RR M wf_RR) as (_ & A & _). apply A. pose proof ord_facts. unfold cs_mem, RR, finite. cbn [lower upper left right]. lia.
Qed.

(** ** The contract *)
Definition as_interval (G : grid) (s : nset) : Prop := exists c, s = NC c /\ on_grid G c.

Lemma n_inter_cut : forall x y, n_inter (NC x) (NC y) = NC (cut x y).
Proof. intros x y. cbn [n_inter]. unfold cut. destruct (cs_intersection x y); reflexivity. Qed.
Lemma n_disj_cut : forall x y, wf x -> wf y -> n_disj (NC x) (NC y) = true -> cs_isempty (cut x y) = true.
Proof.
  intros x y Wx Wy D. unfold n_disj, cs_intersects_ns, ns_isempty in D. destruct (cs_isempty y) eqn:E.
  - unfold cut, cs_intersection, cs_intersection_lr, cs_intersects. rewrite E. reflexivity.
  - apply negb_true_iff in D. unfold cut, cs_intersection, cs_intersection_lr. rewrite D. reflexivity.
Qed.

Definition numeric_measured (G : var -> grid) (GG : forall v, gridded (G v)) : @measured numeric nfull.
Proof.
  refine (@Measured numeric nfull (fun v d => ok_numeric (G v) d) (fun v s => as_interval (G v) s)
    (fun d s => match s with NC c => np d c | NR _ => 0%Q end) _ _ _ _ _ _ _ _ _ _ _).
  - intro v. exists RR. split; [reflexivity|]. split; [apply wf_RR|]. right. apply (g_inf _ (GG v)).
  - intros v a b (x & -> & Gx) (y & -> & Gy). exists (cut x y). split; [apply n_inter_cut|apply cut_grid; assumption].
  - intros v d s Od (c & -> & Gc). exists (np d c). split; [|reflexivity]. apply (np_ok (G v)); [exact Od|exact Gc].
  - intros v d s Od (c & -> & Gc). apply (np_mono (G v) (GG v) d c c Od Gc Gc). auto.
  - intros v d Od. apply (np_full (G v)), Od.
  - intros v d a b Od (x & -> & Gx) (y & -> & Gy). change (inter numeric) with n_inter. rewrite n_inter_cut.
    apply (np_mono (G v) (GG v) d); [exact Od|apply cut_grid; assumption|exact Gx|]. intros z I. apply cut_mem in I; [apply I|apply Gx|apply Gy].
  - intros v d a b Od (x & -> & Gx) (y & -> & Gy). change (inter numeric) with n_inter. rewrite !n_inter_cut.
    apply (np_ext (G v) (GG v)); [exact Od|apply cut_grid; assumption..|]. intro z. rewrite !cut_mem by (apply Gx || apply Gy). tauto.
  - intros v d a b c Od (x & -> & Gx) (y & -> & Gy) (z & -> & Gz). change (inter numeric) with n_inter. rewrite !n_inter_cut.
    pose proof (cut_grid (G v) x y Gx Gy) as Gxy. pose proof (cut_grid (G v) y z Gy Gz) as Gyz.
    apply (np_ext (G v) (GG v)); [exact Od|apply cut_grid; assumption..|]. intro w. rewrite !cut_mem by (apply Gx || apply Gy || apply Gz || apply Gxy || apply Gyz). tauto.
  - intros v d a b Od (x & -> & Gx) (y & -> & Gy). change (inter numeric) with n_inter. rewrite !n_inter_cut.
    pose proof (cut_grid (G v) x y Gx Gy) as Gxy.
    apply (np_ext (G v) (GG v)); [exact Od|apply cut_grid; assumption|exact Gxy|]. intro w. rewrite !cut_mem by (apply Gx || apply Gy || apply Gxy). tauto.
  - intros v d a b Od (x & -> & Gx) (y & -> & Gy) D. change (inter numeric) with n_inter. rewrite n_inter_cut.
    apply (np_empty (G v)); [exact Od|apply (cut_grid (G v) x y Gx Gy)|]. apply n_disj_cut; [apply Gx|apply Gy|exact D].
  - intros v d a b Od (x & -> & Gx) (y & -> & Gy) One. change (inter numeric) with n_inter. rewrite n_inter_cut. apply (np_sure (G v) (GG v)); assumption.
Defined.

(** ** Fitted distributions meet the contract *)

Lemma fitted_jump_off : forall data p knots G, fitted data p knots -> Forall finite data ->
  (count_occ Z.eq_dec data (hd 0 knots) = 1%nat \/ ~ G (hd 0 knots)) -> jump_off p G.
Proof.
  intros data p knots G F Fi [One|N] i f y y' I S Hy Hy'.
  - left. exact (fitted_no_jumps data p knots F Fi One i f y y' I S Hy Hy').
  - destruct (ft_pieces _ _ _ F i f I) as [(-> & E1 & E2)|[[P _]|(-> & E1 & E2)]]; [|lra|].
    + right. rewrite E2. split; [exact N|]. destruct (ft_first _ _ _ F) as (i0 & r & Ep & Lr). pose proof (ft_chain _ _ _ F) as Ch.
      rewrite Ep in Ch. destruct Ch as (Ei & Li & Ch). assert (U0 : upper i0 = hd 0 knots).
      { destruct (ft_pieces _ _ _ F i0 (FConst 0)) as [(_ & _ & H)|[[P _]|(H & _)]]; [rewrite Ep; left; reflexivity|exact H|cbn in P; lra|discriminate]. }
      destruct r as [|[j g] r]; [cbn in Lr; lia|]. destruct Ch as (Ej & Lj & _). exists j, g.
      assert (Ij : In (j, g) p) by (rewrite Ep; right; left; reflexivity). assert (Lw : lower j = hd 0 knots) by (rewrite Ej; cbn [lower]; exact U0).
      split; [exact Ij|]. split; [exact Lw|]. destruct (ft_pieces _ _ _ F j g Ij) as [(-> & H & _)|[[P _]|(-> & H & H')]]; [|exact P|].
      * exfalso. rewrite Ei in Li. cbn [upper] in Li. pose proof (ft_least _ _ _ F) as [Il _]. rewrite Forall_forall in Fi. specialize (Fi _ Il). unfold finite in Fi. lia.
      * exfalso. pose proof (ft_inc _ _ _ F) as Inc. pose proof (ft_len _ _ _ F) as Ln. destruct knots as [|a [|b ks]]; cbn in Ln; try lia. cbn [hd] in *.
        destruct (StronglySorted_inv Inc) as [_ Fab]. rewrite Forall_forall in Fab. assert (In (last (a :: b :: ks) 0) (b :: ks)).
        { clear. revert a b. induction ks as [|c ks IH]; intros a b; [left; reflexivity|]. right. apply (IH b c). }
        specialize (Fab _ H0). lia.
    + left. assert (y' == 1)%Q by (apply (cdf_at_fun p (upper i)); [exact Hy'|right; left; split; [exact E1|reflexivity]]).
      assert (y == 1)%Q; [|lra]. destruct (chain_in _ _ _ _ _ (ft_chain _ _ _ F) I) as (C1 & C2 & _).
      assert (Fl : finite (lower i)).
      { unfold finite. destruct (ft_largest _ _ _ F) as [Il _]. rewrite Forall_forall in Fi. specialize (Fi _ Il). unfold finite in Fi. lia. }
      apply (cdf_at_fun p (lower i)); [exact Hy|]. right. right. split; [exact Fl|]. apply (pc_right _ _ _ (ft_proper _ _ _ F)); assumption.
Qed.

Theorem fitted_contract : forall epsilon rows G, rows <> [] -> Forall (fun v => Z.abs v < ORD_53) rows ->
  (forall lo, least lo rows -> count_occ Z.eq_dec rows lo = 1%nat \/ ~ G lo) ->
  exists p, fit_cdf epsilon None None rows = Ok p /\ ok_numeric G p /\
    forall c, on_grid G c -> (forall v, In v rows -> cs_mem v c) -> (np p c == 1)%Q.
Proof.
  intros epsilon rows G N M J. pose proof ord_facts as O.
  assert (Fi : Forall finite rows) by (apply Forall_forall; intros v I; rewrite Forall_forall in M; specialize (M v I); unfold finite; lia).
  destruct (fit_nonempty epsilon None None rows rows (fit_plain rows) N Fi) as [(z & A & I & E)|(p & ks & E & Ft)].
  - exists (dirac z). assert (Mz : Z.abs z < ORD_53) by (rewrite Forall_forall in M; apply M, I). split; [exact E|]. split; [right; exists z; auto|].
    intros c Gc H. apply (np_dirac z c Mz (proj1 Gc)). apply H, I.
  - exists p. split; [exact E|]. pose proof (ft_least _ _ _ Ft) as Le. pose proof (ft_largest _ _ _ Ft) as La.
    assert (L : line_cdf p). { apply (fitted_line rows p ks Ft Fi). rewrite Forall_forall in M. apply M, La. }
    assert (S : smooth G p) by (split; [exact L|exact (fitted_jump_off rows p ks G Ft Fi (J _ Le))]).
    split; [left; exact S|]. intros c Gc H. pose proof (H _ (proj1 Le)) as Ml. pose proof (H _ (proj1 La)) as Mh.
    assert (Ne : cs_isempty c = false) by (destruct (cs_isempty c) eqn:K; [exfalso; exact (isempty_sound c K _ Ml)|reflexivity]).
    destruct (grid_bounds G c Gc Ne) as (W & Gl & Gu). destruct (np_smooth G p c S Gc Ne) as [_ ->]. pose proof (wf_bounded c W) as (B1 & B2 & B3 & _).
    destruct Ml as (Fl & Ml & _). destruct Mh as (Fh & _ & Mh).
    assert (E1 : (cdfv p (upper c) == 1)%Q).
    { apply (cdf_at_fun p (upper c)); [apply (cdfv_at p _ L); lia|]. destruct (Z.eq_dec (upper c) ORD_INF) as [K|K]; [right; left; split; [exact K|reflexivity]|].
      right. right. assert (F : finite (upper c)) by (unfold finite; lia). split; [exact F|]. apply (pc_right _ _ _ (ft_proper _ _ _ Ft)); [exact F|destruct (right c); lia]. }
    assert (E2 : (cdfv p (lower c) == 0)%Q).
    { apply (cdf_at_fun p (lower c)); [apply (cdfv_at p _ L); lia|]. destruct (Z.eq_dec (lower c) (- ORD_INF)) as [K|K]; [left; split; [exact K|reflexivity]|].
      right. right. assert (F : finite (lower c)) by (unfold finite; lia). split; [exact F|].
      destruct (Z.lt_ge_cases (lower c) (hd 0 ks)) as [D|D]; [apply (pc_left _ _ _ (ft_proper _ _ _ Ft)); assumption|].
      assert (K' : lower c = hd 0 ks) by (destruct (left c); lia). destruct (J _ Le) as [One|Ng]; [|exfalso; apply Ng; rewrite <- K'; exact Gl].
      pose proof (ft_inc _ _ _ Ft) as Inc. pose proof (ft_len _ _ _ Ft) as Ln. destruct ks as [|a [|b ks0]]; cbn in Ln; try lia. cbn [hd] in *.
      destruct (StronglySorted_inv Inc) as [_ Fab]. pose proof (Forall_inv Fab) as Lab. pose proof (dval_lt _ _ Lab).
      pose proof (ft_line _ _ _ Ft a b a (ex_intro _ [] (ex_intro _ ks0 eq_refl)) ltac:(lia)) as V. rewrite K'. apply (plf_is_wd _ _ _ _ ) with (2 := V).
      assert (quantile rows a == 0)%Q as Q0 by (unfold quantile, count_le; fold (cnt rows a); rewrite (cnt_one rows a Le One); change (Qn 1) with 1%Q; unfold Qdiv; ring).
      unfold interpolate. rewrite Q0. field. lra. }
    rewrite E1, E2. ring.
Qed.
