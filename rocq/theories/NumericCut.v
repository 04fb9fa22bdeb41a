(** Cropping a continuous cdf: the piece of an interval that remains. *)
Require Import ZArith QArith Qabs Lqa Bool List Arith Lia Sorted.
Require Import Verif.Base Verif.FloatLine Verif.FloatVal Verif.IntervalModel Verif.IntervalSpec Verif.IntervalProofs Verif.IntervalDec
  Verif.NumBase Verif.FunctionModel Verif.FunctionSpec Verif.FunctionProofs Verif.FunctionPlf Verif.FunctionPlf2 Verif.FunctionInt
  Verif.NumericModel Verif.NumericSpec Verif.NumericFit Verif.NumericProb Verif.NumericMerge Verif.NumericMix Verif.NumericClose.
Import ListNotations.
Open Scope Z_scope.

(** Consecutive pieces [[a, u1), [u1, u2), ...] up to [b]. *)
Fixpoint run (a : Z) (p : plf) (b : Z) : Prop :=
  match p with
  | [] => a = b
  | (i, f) :: r => i = CS a (upper i) INC EXC /\ a < upper i /\ run (upper i) r b
  end.
(** Neighbouring pieces agree at the common bound. *)
Fixpoint joined (p : plf) : Prop :=
  match p with
  | (i, f) :: ((j, g) :: _) as r => (height f (dval (upper i)) == height g (dval (upper i)))%Q /\ joined r
  | _ => True
  end.

(** The exclusive upper end of an interval. *)
Definition beyond (c : cs) : Z := match right c with INC => plus_eps (upper c) | EXC => upper c end.

Lemma ends_of : forall c, wf c -> cs_isempty c = false ->
  lowermost c < beyond c
  /\ ((left c = INC /\ - ORD_INF < lower c /\ lowermost c = lower c) \/ (left c = EXC /\ lower c = - ORD_INF /\ lowermost c = - ORD_INF)
      \/ (left c = EXC /\ - ORD_INF < lower c /\ lowermost c = lower c + 1))
  /\ ((right c = EXC /\ beyond c = upper c) \/ (right c = INC /\ upper c < ORD_INF /\ beyond c = upper c + 1))
  /\ ((upper c < ORD_INF /\ uppermost c = beyond c - 1) \/ (upper c = ORD_INF /\ beyond c = ORD_INF /\ uppermost c = ORD_INF)).
Proof.
  intros [lo hi l r] (Hle & Ml & Mh & Hli & Hui & Hfl & Hfr) Ne. cbn [lower upper left right] in *. pose proof ord_facts as O. eps_facts.
  unfold lowermost, uppermost, beyond. cbn [lower upper left right].
  unfold cs_isempty, isclosed, itype in Ne. cbn [lower upper left right] in Ne.
  destruct (Z.ltb_spec hi lo); [lia|]. destruct l, r; cbn [flag_val] in *; clean_flags; destruct (Z.eqb_spec lo hi); try discriminate Ne.
  all: try (cbn in Ne; discriminate Ne).
  all: repeat match goal with |- _ /\ _ => split end; try lia.
  all: try (rewrite andb_true_r in Ne; apply Z.leb_gt in Ne); try lia.
  all: first [left; split; [reflexivity|lia]|right; split; [reflexivity|lia]
    |destruct (Z.eq_dec lo (- ORD_INF)); [right; left; split; [reflexivity|lia]|right; right; split; [reflexivity|lia]]].
Qed.

Lemma inter_piece : forall s t c, - ORD_INF <= s -> s < t -> wf c -> cs_isempty c = false ->
  (left c = EXC -> lower c = - ORD_INF \/ lower c + 1 <> t) ->
  let i := CS s t (if s =? - ORD_INF then EXC else INC) EXC in
  cs_intersects i c = (Z.max s (lowermost c) <? Z.min t (beyond c))
  /\ (cs_intersects i c = true -> cs_intersection_lr i c (Some INC) (Some EXC) = Ok (CS (Z.max s (lowermost c)) (Z.min t (beyond c)) INC EXC)).
Proof.
  intros s t c Hs L Wc Ne K i. destruct (ends_of c Wc Ne) as (AB & HA & HB & _). destruct Wc as (Hle & Ml & Mh & Hli & Hui & Hfl & Hfr).
  set (A := lowermost c) in *. set (B := beyond c) in *. subst i.
  assert (E : cs_intersects (CS s t (if s =? - ORD_INF then EXC else INC) EXC) c = ((lower c <? t) && (s <? B))).
  { unfold cs_intersects. rewrite Ne. cbn [lower upper left right flag_eqb orb].
    destruct (Z.ltb_spec (lower c) t), (Z.ltb_spec t (lower c)); try lia; cbn [orb andb]; [| |].
    - destruct (Z.ltb_spec (upper c) s); [symmetry; apply Z.ltb_ge; lia|]. rewrite (proj2 (Z.eqb_neq t (lower c))) by lia. cbn [andb].
      destruct (Z.eqb_spec s (upper c)); cbn [andb]; [|symmetry; apply Z.ltb_lt; lia].
      destruct HB as [(-> & EB)|(-> & HB & EB)]; cbn [flag_eqb orb]; [symmetry; apply Z.ltb_ge; lia|].
      rewrite (proj2 (Z.eqb_neq s (- ORD_INF))) by lia. cbn [flag_eqb]. symmetry. apply Z.ltb_lt. lia.
    - reflexivity.
    - destruct (Z.ltb_spec (upper c) s); [reflexivity|]. rewrite (proj2 (Z.eqb_eq t (lower c))) by lia. cbn [andb].
      rewrite (proj2 (Z.eqb_neq s (upper c))) by lia. reflexivity. }
  assert (At : A < t <-> lower c < t).
  { destruct HA as [(_ & _ & ->)|[(F & G & ->)|(F & G & ->)]]; [tauto|rewrite G; tauto|]. destruct (K F); lia. }
  split.
  - rewrite E. destruct (Z.ltb_spec (lower c) t), (Z.ltb_spec s B), (Z.ltb_spec (Z.max s A) (Z.min t B)); cbn [andb]; try reflexivity; exfalso; lia.
  - intro X. unfold cs_intersection_lr. rewrite X. cbn [negb]. rewrite E in X. apply andb_true_iff in X. destruct X as (X1 & X2). apply Z.ltb_lt in X1, X2.
    unfold mk_cs. cbn [lower upper left right].
    assert (M1 : Z.max s (lower c) <= Z.min t (upper c)).
    { destruct HB as [(_ & ->)|(_ & _ & ->)]; lia. }
    destruct (Z.ltb_spec (Z.min t (upper c)) (Z.max s (lower c))) as [|_]; [lia|]. cbn [bind lower upper]. f_equal.
    assert (Lf : set_left (CS (Z.max s (lower c)) (Z.min t (upper c))
         (if lower c =? s then flag_max (if s =? - ORD_INF then EXC else INC) (left c) else if lower c <? s then (if s =? - ORD_INF then EXC else INC) else left c)
         (if upper c =? t then flag_max EXC (right c) else if t <? upper c then EXC else right c)) (Some INC)
       = CS (Z.max s A) (Z.min t (upper c)) INC (if upper c =? t then EXC else if t <? upper c then EXC else right c)).
    { unfold set_left. cbn [left lower upper right flag_max]. eps_facts. destruct HA as [(F & G & ->)|[(F & G & ->)|(F & G & ->)]]; rewrite F.
      - destruct (Z.eqb_spec (lower c) s) as [Es|]; [rewrite (proj2 (Z.eqb_neq s (- ORD_INF))) by lia; cbn [flag_max]; reflexivity|].
        destruct (Z.ltb_spec (lower c) s); [|reflexivity]. rewrite (proj2 (Z.eqb_neq s (- ORD_INF))) by lia. reflexivity.
      - rewrite G. destruct (Z.eqb_spec (- ORD_INF) s) as [<-|]; [rewrite Z.eqb_refl; cbn [flag_max]; f_equal; rewrite Z.max_id; reflexivity|].
        destruct (Z.ltb_spec (- ORD_INF) s); [|lia]. rewrite (proj2 (Z.eqb_neq s (- ORD_INF))) by lia. reflexivity.
      - destruct (Z.eqb_spec (lower c) s) as [Es|].
        + rewrite (proj2 (Z.eqb_neq s (- ORD_INF))) by lia. cbn [flag_max]. rewrite Es in *. f_equal. rewrite Z.max_id. lia.
        + destruct (Z.ltb_spec (lower c) s).
          * rewrite (proj2 (Z.eqb_neq s (- ORD_INF))) by lia. f_equal. lia.
          * f_equal. replace (Z.max s (lower c)) with (lower c) by lia. lia. }
    rewrite Lf. unfold set_right. cbn [left lower upper right]. eps_facts.
    destruct HB as [(F & ->)|(F & G & ->)]; rewrite F; cbn [flag_max].
    + destruct (upper c =? t), (t <? upper c); reflexivity.
    + destruct (Z.eqb_spec (upper c) t) as [->|]; [f_equal; lia|]. destruct (Z.ltb_spec t (upper c)); f_equal; try lia.
      replace (Z.min t (upper c)) with (upper c) by lia. lia.
Qed.
