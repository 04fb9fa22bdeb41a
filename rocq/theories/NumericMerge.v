(** Merging: the sweep over the ends of the pieces adds up the accumulated slopes. *)
Require Import ZArith QArith Qabs Lqa Bool List Arith Lia Sorted Permutation.
Require Import Verif.Base Verif.FloatLine Verif.FloatVal Verif.IntervalModel Verif.IntervalSpec Verif.IntervalProofs
  Verif.NumBase Verif.UtilModel Verif.FunctionModel Verif.FunctionSpec
  Verif.FunctionProofs Verif.FunctionPlf Verif.FunctionInt Verif.RealSetAlias Verif.NumericModel Verif.NumericSpec Verif.NumericFit Verif.NumericProb.
Import ListNotations.
Open Scope Z_scope.

(** ** Events: a position, a change of the slope and a step *)
Definition ev : Type := Z * (Q * Q).
Definition dsl (E : list ev) : Q := Qsum (map (fun e : ev => fst (snd e)) E).
Definition jsum (E : list ev) : Q := Qsum (map (fun e : ev => snd (snd e)) E).
Definition cst (E : list ev) : Q := Qsum (map (fun e : ev => snd (snd e) - fst (snd e) * dval (fst e))%Q E).
Definition eval1 (x : Z) (e : ev) : Q := if fst e <=? x then (fst (snd e) * (dval x - dval (fst e)) + snd (snd e))%Q else 0%Q.
Definition eval (E : list ev) (x : Z) : Q := Qsum (map (eval1 x) E).
Definition edens1 (x : Z) (e : ev) : Q := if fst e <=? x then fst (snd e) else 0%Q.
Definition edens (E : list ev) (x : Z) : Q := Qsum (map (edens1 x) E).

Definition low_ev (e : entry) : ev := (fst e, match fst (snd e) with KFn f => (slope f * snd (snd e), 0)%Q | KJump => (0%Q, snd (snd e)) end).
Definition up_ev (e : entry) : ev := (fst e, match fst (snd e) with KFn f => (- (slope f * snd (snd e)), 0)%Q | KJump => (0%Q, 0%Q) end).

Lemma eval_app : forall a b x, (eval (a ++ b) x == eval a x + eval b x)%Q.
Proof. intros. unfold eval. rewrite map_app. apply Qsum_app. Qed.
Lemma edens_app : forall a b x, (edens (a ++ b) x == edens a x + edens b x)%Q.
Proof. intros. unfold edens. rewrite map_app. apply Qsum_app. Qed.
Lemma dsl_app : forall a b, (dsl (a ++ b) == dsl a + dsl b)%Q.
Proof. intros. unfold dsl. rewrite map_app. apply Qsum_app. Qed.
Lemma cst_app : forall a b, (cst (a ++ b) == cst a + cst b)%Q.
Proof. intros. unfold cst. rewrite map_app. apply Qsum_app. Qed.
Lemma jsum_app : forall a b, (jsum (a ++ b) == jsum a + jsum b)%Q.
Proof. intros. unfold jsum. rewrite map_app. apply Qsum_app. Qed.
Lemma eval_perm : forall a b x, Permutation a b -> (eval a x == eval b x)%Q.
Proof. intros. apply Qsum_perm, Permutation_map. assumption. Qed.
Lemma edens_perm : forall a b x, Permutation a b -> (edens a x == edens b x)%Q.
Proof. intros. apply Qsum_perm, Permutation_map. assumption. Qed.
Lemma cst_perm : forall a b, Permutation a b -> (cst a == cst b)%Q.
Proof. intros. apply Qsum_perm, Permutation_map. assumption. Qed.

Lemma eval_all : forall E x, Forall (fun e : ev => fst e <= x) E -> (eval E x == dsl E * dval x + cst E)%Q.
Proof.
  intros E x H. induction H as [|e E L _ IH]; unfold eval, dsl, cst in *; cbn [map Qsum]; [lra|]. rewrite IH. unfold eval1.
  apply Z.leb_le in L. rewrite L. ring.
Qed.
Lemma eval_none : forall E x, Forall (fun e : ev => x < fst e) E -> (eval E x == 0)%Q.
Proof.
  intros E x H. induction H as [|e E L _ IH]; unfold eval in *; cbn [map Qsum]; [lra|]. rewrite IH. unfold eval1.
  apply Z.leb_gt in L. rewrite L. lra.
Qed.
Lemma edens_all : forall E x, Forall (fun e : ev => fst e <= x) E -> (edens E x == dsl E)%Q.
Proof.
  intros E x H. induction H as [|e E L _ IH]; unfold edens, dsl in *; cbn [map Qsum]; [lra|]. rewrite IH. unfold edens1.
  apply Z.leb_le in L. rewrite L. lra.
Qed.
Lemma edens_none : forall E x, Forall (fun e : ev => x < fst e) E -> (edens E x == 0)%Q.
Proof.
  intros E x H. induction H as [|e E L _ IH]; unfold edens in *; cbn [map Qsum]; [lra|]. rewrite IH. unfold edens1.
  apply Z.leb_gt in L. rewrite L. lra.
Qed.
Lemma cst_at : forall E x, Forall (fun e : ev => fst e = x) E -> (cst E == jsum E - dsl E * dval x)%Q.
Proof.
  intros E x H. induction H as [|e E L _ IH]; unfold cst, jsum, dsl in *; cbn [map Qsum]; [lra|]. rewrite IH, L. ring.
Qed.

(** ** The two inner loops *)
Definition good_low (e : entry) : Prop :=
  finite (fst e) /\ (0 < snd (snd e))%Q /\ match fst (snd e) with KFn f => (0 < slope f)%Q | KJump => True end.
Definition good_up (e : entry) : Prop :=
  finite (fst e) /\ (0 < snd (snd e))%Q /\ match fst (snd e) with KFn f => (0 < slope f)%Q | KJump => False end.

Lemma effect_low : forall x k w, good_low (x, (k, w)) -> no_effect x (- ORD_INF) k = false.
Proof.
  intros x k w (F & _ & H). cbn [fst snd] in *. unfold no_effect. destruct F. replace (x =? - ORD_INF) with false by (symmetry; apply Z.eqb_neq; lia).
  cbn [orb]. destruct k as [f|]; [|reflexivity]. unfold Qz. destruct (Qeqb_spec (slope f) 0); [lra|reflexivity].
Qed.
Lemma effect_up : forall x k w, good_up (x, (k, w)) -> no_effect x ORD_INF k = false.
Proof.
  intros x k w (F & _ & H). cbn [fst snd] in *. unfold no_effect. destruct F. replace (x =? ORD_INF) with false by (symmetry; apply Z.eqb_neq; lia).
  cbn [orb]. destruct k as [f|]; [|reflexivity]. unfold Qz. destruct (Qeqb_spec (slope f) 0); [lra|reflexivity].
Qed.

Definition stops (pivot : option Z) (other : Z) (l : list entry) : Prop :=
  match l with [] => True | e :: _ => take_entry pivot (fst e) other = false end.

Lemma lower_loop_spec : forall lo other pivot m off, Forall good_low lo ->
  exists tk lo' pivot' m' off', lower_loop lo other pivot m off = (lo', pivot', m', off')
    /\ lo = tk ++ lo' /\ (m' == m + dsl (map low_ev tk))%Q /\ (off' == off + jsum (map low_ev tk))%Q
    /\ (forall e, In e tk -> pivot' = Some (fst e)) /\ (tk = [] -> pivot' = pivot)
    /\ (forall p, pivot = Some p -> pivot' = Some p)
    /\ (pivot = None -> forall e, In e tk -> fst e <= other) /\ stops pivot' other lo'.
Proof.
  induction lo as [|[x [k w]] lo IH]; intros other pivot m off G.
  - exists [], [], pivot, m, off. unfold dsl, jsum. cbn. repeat split; try tauto; lra.
  - destruct (take_entry pivot x other) eqn:T.
    + assert (exists m1 off1, lower_loop ((x, (k, w)) :: lo) other pivot m off = lower_loop lo other (Some x) m1 off1
               /\ (m1 == m + fst (snd (low_ev (x, (k, w)))))%Q /\ (off1 == off + snd (snd (low_ev (x, (k, w)))))%Q) as (m1 & off1 & E & Em & Eo).
      { cbn [lower_loop]. rewrite T, (effect_low x k w (Forall_inv G)). unfold low_ev. cbn [fst snd]. destruct k as [f|]; cbn [fst snd];
          eexists _, _; (split; [reflexivity|]); split; lra. }
      destruct (IH other (Some x) m1 off1 (Forall_inv_tail G)) as (tk & lo' & p' & m' & o' & E' & L & Hm & Ho & Hi & Hn & Hp & Hl & Hs).
      exists ((x, (k, w)) :: tk), lo', p', m', o'. pose proof (Hp x eq_refl) as P. subst p'.
      split; [exact (eq_trans E E')|]. split; [cbn; f_equal; exact L|].
      split; [unfold dsl in *; cbn [map Qsum]; rewrite Hm, Em; lra|]. split; [unfold jsum in *; cbn [map Qsum]; rewrite Ho, Eo; lra|].
      split; [intros e [<-|I]; [reflexivity|exact (Hi e I)]|]. split; [discriminate|].
      split; [intros p ->; cbn in T; apply Z.eqb_eq in T; congruence|].
      split; [|exact Hs]. intros -> e [<-|I]; cbn in T; apply Z.leb_le in T; [exact T|].
      specialize (Hi e I). injection Hi as Hi. rewrite <- Hi. exact T.
    + exists [], ((x, (k, w)) :: lo), pivot, m, off. cbn [lower_loop]. rewrite T. unfold dsl, jsum, stops. cbn. repeat split; try tauto; lra.
Qed.

Lemma upper_loop_spec : forall up other pivot m, Forall good_up up ->
  exists tk up' pivot' m', upper_loop up other pivot m = (up', pivot', m')
    /\ up = tk ++ up' /\ (m' == m + dsl (map up_ev tk))%Q
    /\ (forall e, In e tk -> pivot' = Some (fst e)) /\ (tk = [] -> pivot' = pivot)
    /\ (forall p, pivot = Some p -> pivot' = Some p)
    /\ (pivot = None -> forall e, In e tk -> fst e <= other) /\ stops pivot' other up'.
Proof.
  induction up as [|[x [k w]] up IH]; intros other pivot m G.
  - exists [], [], pivot, m. unfold dsl. cbn. repeat split; try tauto; lra.
  - destruct (take_entry pivot x other) eqn:T.
    + assert (exists m1, upper_loop ((x, (k, w)) :: up) other pivot m = upper_loop up other (Some x) m1
               /\ (m1 == m + fst (snd (up_ev (x, (k, w)))))%Q) as (m1 & E & Em).
      { cbn [upper_loop]. rewrite T, (effect_up x k w (Forall_inv G)). unfold up_ev. cbn [fst snd]. destruct k as [f|]; cbn [fst snd].
        - eexists; (split; [reflexivity|]); lra.
        - destruct (Forall_inv G) as (_ & _ & []). }
      destruct (IH other (Some x) m1 (Forall_inv_tail G)) as (tk & up' & p' & m' & E' & L & Hm & Hi & Hn & Hp & Hl & Hs).
      exists ((x, (k, w)) :: tk), up', p', m'. pose proof (Hp x eq_refl) as P. subst p'.
      split; [exact (eq_trans E E')|]. split; [cbn; f_equal; exact L|].
      split; [unfold dsl in *; cbn [map Qsum]; rewrite Hm, Em; lra|].
      split; [intros e [<-|I]; [reflexivity|exact (Hi e I)]|]. split; [discriminate|].
      split; [intros p ->; cbn in T; apply Z.eqb_eq in T; congruence|].
      split; [|exact Hs]. intros -> e [<-|I]; cbn in T; apply Z.leb_le in T; [exact T|].
      specialize (Hi e I). injection Hi as Hi. rewrite <- Hi. exact T.
    + exists [], ((x, (k, w)) :: up), pivot, m. cbn [upper_loop]. rewrite T. unfold dsl, stops. cbn. repeat split; try tauto; lra.
Qed.

Definition by_pos (a b : entry) : Prop := fst a <= fst b.

Lemma stops_beyond : forall p other l, StronglySorted by_pos l -> stops (Some p) other l -> (forall e, In e l -> p <= fst e) -> forall e, In e l -> p < fst e.
Proof.
  intros p other [|a l] S T H e I; [destruct I|]. cbn in T. apply Z.eqb_neq in T. pose proof (H a (or_introl eq_refl)).
  apply StronglySorted_inv in S. destruct S as (_ & F). destruct I as [<-|I]; [lia|]. rewrite Forall_forall in F. specialize (F e I). unfold by_pos in F. lia.
Qed.
Lemma first_pos_le : forall l, StronglySorted by_pos l -> forall e, In e l -> first_pos l <= fst e.
Proof.
  intros [|[x y] l] S e I; [destruct I|]. apply StronglySorted_inv in S. destruct S as (_ & F). cbn. destruct I as [<-|I]; [cbn; lia|].
  rewrite Forall_forall in F. exact (F e I).
Qed.
Lemma SS_app_r : forall {A} (R : A -> A -> Prop) l1 l2, StronglySorted R (l1 ++ l2) -> StronglySorted R l2.
Proof. induction l1 as [|a l1 IH]; intros l2 S; [exact S|]. apply IH. apply StronglySorted_inv in S. tauto. Qed.

(** One round: all the events at the smallest position are consumed. *)
Lemma round : forall lo up m, Forall good_low lo -> Forall good_up up -> StronglySorted by_pos lo -> StronglySorted by_pos up ->
  (lo <> [] \/ up <> []) ->
  exists (tl tu : list entry) lo' up' x m1 off m_, lower_loop lo (first_pos up) None m 0 = (lo', (match tl with [] => None | _ => Some x end), m1, off)
    /\ upper_loop up (first_pos lo') (match tl with [] => None | _ => Some x end) m1 = (up', Some x, m_)
    /\ lo = tl ++ lo' /\ up = tu ++ up' /\ (tl <> [] \/ tu <> [])
    /\ (forall e, In e tl \/ In e tu -> fst e = x) /\ (forall e, In e lo' \/ In e up' -> x < fst e)
    /\ finite x
    /\ (m_ == m + dsl (map low_ev tl ++ map up_ev tu))%Q /\ (off == jsum (map low_ev tl ++ map up_ev tu))%Q.
Proof.
  intros lo up m Gl Gu Sl Su NE.
  destruct (lower_loop_spec lo (first_pos up) None m 0 Gl) as (tl & lo' & p1 & m1 & off & E1 & L1 & Hm1 & Ho1 & Hi1 & Hn1 & _ & Hl1 & Hs1).
  destruct (upper_loop_spec up (first_pos lo') p1 m1 Gu) as (tu & up' & p2 & m2 & E2 & L2 & Hm2 & Hi2 & Hn2 & Hp2 & Hl2 & Hs2).
  assert (Ju : (jsum (map up_ev tu) == 0)%Q).
  { clear. unfold jsum. induction tu as [|[x [k w]] tu IH]; cbn [map Qsum]; [lra|]. rewrite IH. unfold up_ev. destruct k; cbn; lra. }
  assert (Sl' : StronglySorted by_pos lo') by (rewrite L1 in Sl; apply SS_app_r in Sl; exact Sl).
  assert (Su' : StronglySorted by_pos up') by (rewrite L2 in Su; apply SS_app_r in Su; exact Su).
  specialize (Hl1 eq_refl).
  destruct tl as [|a tl].
  - assert (p1 = None) by (apply Hn1; reflexivity). subst p1. cbn [app] in L1. subst lo'.
    destruct tu as [|b tu].
    { (* nothing taken: impossible *)
      exfalso. assert (p2 = None) by (apply Hn2; reflexivity). subst p2. cbn [app] in L2. subst up'.
      destruct lo as [|[xl el] lo].
      - destruct up as [|[xu eu] up]; [destruct NE; congruence|]. cbn in Hs2. apply Z.leb_gt in Hs2. destruct (Forall_inv Gu) as ((_ & F) & _). cbn in F. lia.
      - cbn in Hs1. apply Z.leb_gt in Hs1. destruct up as [|[xu eu] up]; cbn in *.
        + destruct (Forall_inv Gl) as ((_ & F) & _). cbn in F. lia.
        + apply Z.leb_gt in Hs2. lia. }
    assert (P2 : p2 = Some (fst b)) by (apply Hi2; left; reflexivity). subst p2.
    exists [], (b :: tu), lo, up', (fst b), m1, off, m2. cbn [map app].
    split; [exact E1|]. split; [exact E2|]. split; [reflexivity|]. split; [exact L2|]. split; [right; discriminate|].
    split. { intros e [[]|I]. specialize (Hi2 e I). congruence. }
    split.
    { intros e [I|I].
      - assert (first_pos up = fst b) by (rewrite L2; destruct b; reflexivity).
        destruct lo as [|[xl el] lo]; [destruct I|]. cbn in Hs1. apply Z.leb_gt in Hs1. pose proof (first_pos_le _ Sl e I). cbn in H0. lia.
      - refine (stops_beyond (fst b) (first_pos lo) up' Su' Hs2 _ e I). intros e' I'. pose proof (first_pos_le _ Su e') as Q. rewrite L2 in Q. destruct b as [xb eb]. cbn [app first_pos] in Q. apply Q. right. apply in_or_app. right. exact I'. }
    split. { rewrite L2 in Gu. destruct (Forall_inv Gu) as (F & _). exact F. }
    unfold dsl, jsum in *. cbn [map Qsum] in *. split; [rewrite Hm2, Hm1; lra|rewrite Ho1, Ju; lra].
  - assert (P1 : p1 = Some (fst a)) by (apply Hi1; left; reflexivity). subst p1.
    pose proof (Hp2 _ eq_refl) as P2. subst p2.
    assert (Fa : fst a <= first_pos up) by (apply Hl1; left; reflexivity).
    exists (a :: tl), tu, lo', up', (fst a), m1, off, m2.
    split; [exact E1|]. split; [exact E2|]. split; [exact L1|]. split; [exact L2|]. split; [left; discriminate|].
    split. { intros e [I|I]; [specialize (Hi1 e I)|specialize (Hi2 e I)]; congruence. }
    split.
    { intros e [I|I].
      - refine (stops_beyond (fst a) (first_pos up) lo' Sl' Hs1 _ e I). intros e' I'. pose proof (first_pos_le _ Sl e') as Q. rewrite L1 in Q. destruct a as [xa ea]. cbn [app first_pos] in Q. apply Q. right. apply in_or_app. right. exact I'.
      - refine (stops_beyond (fst a) (first_pos lo') up' Su' Hs2 _ e I). intros e' I'. pose proof (first_pos_le _ Su e') as Q. assert (I2 : In e' up) by (rewrite L2; apply in_or_app; right; exact I'). specialize (Q I2). lia. }
    split. { rewrite L1 in Gl. destruct (Forall_inv Gl) as (F & _). exact F. }
    rewrite dsl_app, jsum_app. split; [rewrite Hm2, Hm1; lra|rewrite Ho1, Ju; lra].
Qed.

(** ** The sweep *)
Definition lin (f : fn) (q : Q) : Q := (slope f * q + intercept f)%Q.
Lemma fn_lin : forall f q, affine f -> fn_is f q (lin f q).
Proof. intros [|v|m c|? ? ?] q A; cbn in A; try contradiction; eexists; (split; [reflexivity|]); unfold lin; cbn; lra. Qed.

Definition tail_flag (a : Z) : flag := if a =? - ORD_INF then EXC else INC.
(** No steps between neighbouring pieces; the list is in reverse order. *)
Fixpoint smooth (out : plf) : Prop :=
  match out with
  | (j, g) :: ((i, f) :: _) as r => (lin g (dval (lower j)) == lin f (dval (lower j)))%Q /\ smooth r
  | _ => True
  end.
Definition steep (s : cs * fn) : Prop := match snd s with FLin m _ => (tiny < m)%Q | _ => True end.
Definition no_step (l : list entry) : Prop := Forall (fun e => fst (snd e) <> KJump) l.

Record state (E : list ev) (NJ : Prop) (lo up : list entry) (m c : Q) (out : plf) (done : list ev) (cur : Z) (i : cs) (f : fn) (out' : plf) : Prop := {
  st_perm : Permutation E (done ++ map low_ev lo ++ map up_ev up);
  st_done : Forall (fun e : ev => fst e <= cur) done;
  st_lo : Forall (fun e : entry => cur < fst e) lo;
  st_up : Forall (fun e : entry => cur < fst e) up;
  st_m : (m == dsl done)%Q;
  st_c : (c == cst done)%Q;
  st_pos : (0 <= m)%Q;
  st_val : (0 <= m * dval cur + c)%Q;
  st_out : out = (i, f) :: out';
  st_aff : affines out;
  st_slope : (slope f == m)%Q;
  st_int : (intercept f == c)%Q;
  st_low : lower i <= cur;
  st_left : left i = tail_flag (lower i);
  st_right : right i = EXC;
  st_chain : chain (- ORD_INF) (rev out') (lower i);
  st_before : forall x, finite x -> x < lower i -> plf_is (rev out') x (eval E x);
  st_after : forall x, finite x -> lower i <= x -> (eval done x == m * dval x + c)%Q;
  st_end : lo = [] -> up = [] -> i = CS cur ORD_INF INC EXC /\ finite cur /\ exists e, In e E /\ fst e = cur;
  st_steep : Forall steep out;
  st_first : out' = [] /\ f = FConst 0 /\ lower i = - ORD_INF \/ exists k, last out' (i, f) = (k, FConst 0) /\ out' <> [];
  st_smooth : NJ -> smooth out /\ no_step lo;
  st_dens : forall x, finite x -> x < lower i -> (density (rev out') x == edens E x)%Q;
  st_grow : forall x, finite x -> lower i <= x -> (edens done x == m)%Q
}.

Definition grain (E : list ev) : Prop := forall x, finite x -> (edens E x == 0)%Q \/ (tiny < edens E x)%Q.
Definition ends (lo up : list entry) : Prop := forall e f, In e lo -> fst (snd e) = KFn f -> exists e', In e' up /\ fst e < fst e'.

Definition finished (E : list ev) (NJ : Prop) (out : plf) : Prop :=
  exists done m c cur i f out', state E NJ [] [] m c out done cur i f out'.

Lemma plf_at_app : forall p q a b x, chain a p b -> - ORD_INF <= a -> b <= ORD_INF -> finite x -> a <= x < b -> plf_at (p ++ q) x = plf_at p x.
Proof.
  induction p as [|[i f] p IH]; intros q a b x C A B F L; [cbn in C; lia|].
  assert (H : halfopen i) by (pose proof (chain_halfopen _ _ _ C A B) as H; exact (Forall_inv H)).
  destruct C as (E & Lt & C). pose proof (chain_le _ _ _ C). cbn [app].
  destruct (Z_lt_dec x (upper i)) as [Lx|Lx].
  - rewrite !plf_at_head; try assumption; try reflexivity; rewrite E; cbn [lower upper]; lia.
  - rewrite !plf_at_tail; try assumption; try lia. apply (IH q (upper i) b); try assumption; lia.
Qed.

Lemma jsum_low : forall tl, Forall good_low tl -> (0 <= jsum (map low_ev tl))%Q.
Proof.
  intros tl G. unfold jsum. induction G as [|[x [k w]] tl (_ & W & _) _ IH]; cbn [map Qsum]; [lra|]. unfold low_ev at 1. cbn in W. destruct k; cbn [fst snd]; lra.
Qed.
Lemma jsum_up : forall tu, (jsum (map up_ev tu) == 0)%Q.
Proof. intros tu. unfold jsum. induction tu as [|[x [k w]] tu IH]; cbn [map Qsum]; [lra|]. rewrite IH. unfold up_ev. destruct k; cbn; lra. Qed.
Lemma jsum_no_step : forall tl, no_step tl -> (jsum (map low_ev tl) == 0)%Q.
Proof.
  intros tl G. unfold jsum. induction G as [|[x [k w]] tl H _ IH]; cbn [map Qsum]; [lra|]. rewrite IH. unfold low_ev. destruct k; cbn in *; [lra|congruence].
Qed.
Lemma dsl_steps : forall tl, Forall (fun e : entry => fst (snd e) = KJump) tl -> (dsl (map low_ev tl) == 0)%Q.
Proof. intros tl G. unfold dsl. induction G as [|[x [k w]] tl H _ IH]; cbn [map Qsum]; [lra|]. rewrite IH. unfold low_ev. cbn in *. subst k. cbn. lra. Qed.
Lemma jsum_steps : forall tl, Forall good_low tl -> Forall (fun e : entry => fst (snd e) = KJump) tl -> tl <> [] -> (0 < jsum (map low_ev tl))%Q.
Proof.
  intros [|[x [k w]] tl] G F N; [congruence|]. pose proof (jsum_low tl (Forall_inv_tail G)) as J. unfold jsum in *. cbn [map Qsum].
  pose proof (Forall_inv F) as K. cbn in K. subst k. destruct (Forall_inv G) as (_ & W & _). cbn in W. unfold low_ev at 1. cbn [fst snd]. lra.
Qed.
Lemma dsl_up : forall tu, Forall good_up tu -> (dsl (map up_ev tu) <= 0)%Q.
Proof.
  intros tu G. unfold dsl. induction G as [|[x [k w]] tu (_ & W & K) _ IH]; cbn [map Qsum]; [lra|]. unfold up_ev at 1. cbn in W, K. destruct k as [f|]; [|contradiction].
  cbn [fst snd]. assert (0 < slope f * w)%Q by (apply Qmult_lt_0_compat; assumption). lra.
Qed.
Lemma dsl_up_neg : forall tu, Forall good_up tu -> tu <> [] -> (dsl (map up_ev tu) < 0)%Q.
Proof.
  intros [|[x [k w]] tu] G N; [congruence|]. pose proof (dsl_up tu (Forall_inv_tail G)) as J. destruct (Forall_inv G) as (_ & W & K). cbn in W, K.
  destruct k as [f|]; [|contradiction]. unfold dsl in *. cbn [map Qsum]. unfold up_ev at 1. cbn [fst snd].
  assert (0 < slope f * w)%Q by (apply Qmult_lt_0_compat; assumption). lra.
Qed.

Lemma step : forall E NJ lo up m c out done cur i f out' tl tu lo' up' x m_ off,
  grain E -> state E NJ lo up m c out done cur i f out' -> ends lo up ->
  Forall good_low lo -> Forall good_up up ->
  lo = tl ++ lo' -> up = tu ++ up' -> (tl <> [] \/ tu <> []) ->
  (forall e, In e tl \/ In e tu -> fst e = x) -> (forall e, In e lo' \/ In e up' -> x < fst e) -> finite x ->
  (m_ == m + dsl (map low_ev tl ++ map up_ev tu))%Q -> (off == jsum (map low_ev tl ++ map up_ev tu))%Q ->
  let y := (m * dval x + c)%Q in
  let m2 := if Qltb tiny (Qabs m_) then m_ else 0%Q in
  let c2 := (y - m2 * dval x + off)%Q in
  let g := if Qltb tiny (Qabs m2) then FLin m2 c2 else FConst c2 in
  let dn := done ++ map low_ev tl ++ map up_ev tu in
  if (negb (Qz c2) || negb (Qz m2)) && (negb (Qeq_bool m2 (slope f)) || negb (Qeq_bool c2 (intercept f)))
  then state E NJ lo' up' m2 c2 ((CS x ORD_INF INC EXC, g) :: (set_upper i x, f) :: out') dn x (CS x ORD_INF INC EXC) g ((set_upper i x, f) :: out')
  else state E NJ lo' up' m2 c2 ((set_upper i x, f) :: out') dn x (set_upper i x) f out'.
Proof.
  intros E NJ lo up m c out done cur i f out' tl tu lo' up' x m_ off G St En Gl Gu El Eu NE At Beyond Fx Hm Hoff y m2 c2 g dn.
  destruct St as [P D Lo Up Sm Sc Sp Sv So Sa Ss Si Sl Slf Srt Sch Sb Saf Se Sst Sf Ssm Sde Sgr].
  set (tk := map low_ev tl ++ map up_ev tu) in *.
  assert (Tk : Forall (fun e : ev => fst e = x) tk).
  { unfold tk. apply Forall_app. split; apply Forall_forall; intros e I; apply in_map_iff in I; destruct I as (e0 & <- & I); cbn; apply At; tauto. }
  assert (Cx : cur < x).
  { destruct NE as [N|N].
    - destruct tl as [|a tl]; [congruence|]. rewrite <- (At a (or_introl (or_introl eq_refl))). rewrite El in Lo. exact (Forall_inv Lo).
    - destruct tu as [|a tu]; [congruence|]. rewrite <- (At a (or_intror (or_introl eq_refl))). rewrite Eu in Up. exact (Forall_inv Up). }
  assert (Dn : Forall (fun e : ev => fst e <= x) dn).
  { unfold dn. apply Forall_app. split; [eapply Forall_impl; [|exact D]; cbn; intros; lia|eapply Forall_impl; [|exact Tk]; cbn; intros; lia]. }
  assert (Rest : Forall (fun e : ev => x < fst e) (map low_ev lo' ++ map up_ev up')).
  { apply Forall_app. split; apply Forall_forall; intros e I; apply in_map_iff in I; destruct I as (e0 & <- & I); cbn; apply Beyond; tauto. }
  assert (P' : Permutation E (dn ++ map low_ev lo' ++ map up_ev up')).
  { rewrite P. rewrite El, Eu, !map_app. unfold dn, tk. rewrite <- !app_assoc. apply Permutation_app_head, Permutation_app_head. rewrite !app_assoc. apply Permutation_app_tail, Permutation_app_comm. }
  assert (Hd : (edens E x == m_)%Q).
  { rewrite (edens_perm _ _ x P'), edens_app, (edens_all dn x Dn), (edens_none _ x Rest). unfold dn. rewrite dsl_app, Hm, Sm. lra. }
  assert (M2 : (m2 == m_)%Q /\ (0 <= m2)%Q /\ ((m2 == 0)%Q \/ (tiny < m2)%Q)).
  { pose proof (G x Fx) as [Z|Z]; rewrite Hd in Z; unfold m2, Qltb.
    - destruct (Qltb_spec tiny (Qabs m_)) as [T|T]; [rewrite Z in T; cbn in T; unfold tiny in T; lra|]. split; [lra|]. split; [lra|left; lra].
    - assert (A : (Qabs m_ == m_)%Q) by (apply Qabs_pos; unfold tiny in Z; lra).
      destruct (Qltb_spec tiny (Qabs m_)) as [T|T]; [|rewrite A in T; lra]. split; [lra|]. unfold tiny in *. split; [lra|right; lra]. }
  destruct M2 as (M2 & M2p & M2t).
  assert (Jp : (0 <= off)%Q).
  { rewrite Hoff. unfold tk. rewrite jsum_app, jsum_up. rewrite El in Gl. apply Forall_app in Gl. pose proof (jsum_low tl (proj1 Gl)). lra. }
  assert (Dm : (m2 == dsl dn)%Q) by (unfold dn; rewrite dsl_app, M2, Hm, Sm; lra).
  assert (C2 : (c2 == c + cst tk)%Q).
  { unfold c2, y. rewrite (cst_at tk x Tk), M2, Hm, Hoff. ring. }
  assert (Dc : (c2 == cst dn)%Q) by (unfold dn; rewrite cst_app, C2, Sc; lra).
  assert (Y : (0 <= y)%Q /\ ((0 < m)%Q -> (0 < y)%Q)).
  { unfold y. pose proof (dval_lt _ _ Cx). split.
    - assert (m * dval cur <= m * dval x)%Q by (rewrite !(Qmult_comm m); apply Qmult_le_compat_r; lra). lra.
    - intro M. assert (m * dval cur < m * dval x)%Q by (apply Qmult_lt_l; assumption). lra. }
  assert (V2 : (0 <= m2 * dval x + c2)%Q) by (unfold c2; lra).
  assert (Af : affine f) by (rewrite So in Sa; exact (Forall_inv Sa)).
  assert (Ends' : lo' = [] -> up' = [] -> ~ ((m2 == m)%Q /\ (c2 == c)%Q)).
  { intros L0 U0 (Q1 & Q2). subst lo' up'. rewrite app_nil_r in El, Eu. subst tl tu.
    assert (J : Forall (fun e : entry => fst (snd e) = KJump) lo).
    { apply Forall_forall. intros e I. destruct (fst (snd e)) as [h|] eqn:K; [|reflexivity]. exfalso.
      destruct (En e h I K) as (e' & I' & L'). rewrite (At e (or_introl I)), (At e' (or_intror I')) in L'. lia. }
    pose proof (dsl_steps lo J) as Dl. unfold tk in Hm, Hoff. rewrite dsl_app in Hm.
    destruct up as [|u up].
    - destruct NE as [N|N]; [|congruence]. pose proof (jsum_steps lo Gl J N) as Js. unfold tk in C2. rewrite app_nil_r in C2.
      rewrite (cst_at (map low_ev lo) x) in C2.
      + rewrite Dl in C2. lra.
      + apply Forall_forall. intros e I. apply in_map_iff in I. destruct I as (e0 & <- & I). cbn. apply At. tauto.
    - pose proof (dsl_up_neg (u :: up) Gu) as Du. assert (u :: up <> []) as N by discriminate. specialize (Du N). lra. }
  assert (Sn : NJ -> (off == 0)%Q /\ no_step lo').
  { intro N. destruct (Ssm N) as (_ & S2). unfold no_step in S2. rewrite El in S2. apply Forall_app in S2. destruct S2 as (S2 & S3).
    split; [|exact S3]. rewrite Hoff. unfold tk. rewrite jsum_app, jsum_up, (jsum_no_step tl S2). lra. }
  assert (Ev : forall z, finite z -> z < x -> (eval E z == eval done z)%Q).
  { intros z Fz Lz. rewrite (eval_perm _ _ z P'). unfold dn. rewrite eval_app, (eval_none (map low_ev lo' ++ map up_ev up') z), eval_app, (eval_none tk z).
    - lra.
    - eapply Forall_impl; [|exact Tk]. cbn. intros; lia.
    - eapply Forall_impl; [|exact Rest]. cbn. intros; lia. }
  assert (Ed : forall z, finite z -> z < x -> (edens E z == edens done z)%Q).
  { intros z Fz Lz. rewrite (edens_perm _ _ z P'). unfold dn. rewrite edens_app, (edens_none (map low_ev lo' ++ map up_ev up') z), edens_app, (edens_none tk z).
    - lra.
    - eapply Forall_impl; [|exact Tk]. cbn. intros; lia.
    - eapply Forall_impl; [|exact Rest]. cbn. intros; lia. }
  assert (Inx : exists e, In e E /\ fst e = x).
  { assert (exists e, In e tk) as (e & I).
    { unfold tk. destruct NE as [N|N]; [destruct tl as [|a ?]|destruct tu as [|a ?]]; try congruence; [exists (low_ev a)|exists (up_ev a)]; apply in_or_app; [left|right]; left; reflexivity. }
    exists e. split; [|rewrite Forall_forall in Tk; exact (Tk e I)]. eapply Permutation_in; [symmetry; exact P'|]. apply in_or_app. left. unfold dn. apply in_or_app. right. exact I. }
  destruct ((negb (Qz c2) || negb (Qz m2)) && (negb (Qeq_bool m2 (slope f)) || negb (Qeq_bool c2 (intercept f)))) eqn:B.
  - (* a new piece *)
    assert (Gs : (slope g == m2)%Q /\ (intercept g == c2)%Q /\ affine g /\ steep (CS x ORD_INF INC EXC, g)).
    { unfold g, Qltb. assert (A : (Qabs m2 == m2)%Q) by (apply Qabs_pos; exact M2p).
      destruct (Qltb_spec tiny (Qabs m2)) as [T|T]; unfold steep; cbn [slope intercept affine snd].
      - repeat split; try lra.
      - rewrite A in T. unfold tiny in *. repeat split; try lra. }
    destruct Gs as (Gs & Gi & Ga & Gt).
    assert (Ch : chain (- ORD_INF) (rev ((set_upper i x, f) :: out')) x).
    { cbn [rev]. apply chain_app with (lower i); [exact Sch|]. cbn [chain upper set_upper]. split; [|split; [lia|reflexivity]].
      unfold set_upper. rewrite Slf, Srt. reflexivity. }
    constructor; try assumption; try reflexivity.
    + apply Forall_forall. intros e I. apply Beyond. tauto.
    + apply Forall_forall. intros e I. apply Beyond. tauto.
    + constructor; [exact Ga|]. constructor; [exact Af|]. rewrite So in Sa. exact (Forall_inv_tail Sa).
    + cbn. destruct Fx as (F1 & _). unfold tail_flag. replace (x =? - ORD_INF) with false by (symmetry; apply Z.eqb_neq; lia). reflexivity.
    + intros z Fz Lz. cbn [lower] in Lz.
      destruct (Z_lt_dec z (lower i)) as [L|L].
      * assert (Eq : plf_at (rev ((set_upper i x, f) :: out')) z = plf_at (rev out') z).
        { cbn [rev]. destruct Fz. apply (plf_at_app _ _ (- ORD_INF) (lower i)); try assumption; try lia; unfold finite in *; try lia. }
        apply (plf_is_ext _ _ z _ Eq). apply Sb; assumption.
      * assert (Eq : plf_at (rev ((set_upper i x, f) :: out')) z = Some f).
        { apply (chain_at _ (- ORD_INF) x (set_upper i x) f z Ch); unfold finite in *; try lia.
          - apply in_rev. rewrite rev_involutive. left. reflexivity.
          - cbn. lia. }
        apply (plf_is_of _ _ _ _ Eq). apply (fn_is_wd f (dval z) _ (lin f (dval z))); [reflexivity| |apply fn_lin; exact Af].
        rewrite (Ev z Fz Lz), (Saf z Fz); [|lia]. unfold lin. rewrite Ss, Si. reflexivity.
    + intros z Fz Lz. cbn [lower] in Lz. rewrite eval_all; [rewrite Dm, Dc; reflexivity|]. eapply Forall_impl; [|exact Dn]. cbn. intros; lia.
    + intros _ _. auto.
    + constructor; [exact Gt|]. rewrite So in Sst. inversion Sst; subst. constructor; assumption.
    + right. destruct Sf as [(N & F0 & _)|(k & L & N)].
      * subst out' f. exists (set_upper i x). split; [reflexivity|discriminate].
      * exists k. split; [|discriminate]. destruct out' as [|o out']; [congruence|]. rewrite <- L. change (last ((set_upper i x, f) :: o :: out') (CS x ORD_INF INC EXC, g)) with (last (o :: out') (CS x ORD_INF INC EXC, g)). apply last_dflt.
    + intro N. destruct (Ssm N) as (S1 & _). destruct (Sn N) as (O0 & S3). split; [|exact S3].
      cbn [smooth lower]. split.
      * unfold lin. rewrite Gs, Gi, Ss, Si. unfold c2, y. rewrite O0. ring.
      * rewrite So in S1. destruct out' as [|[j h] out']; [exact I|]. cbn [smooth set_upper lower] in *. exact S1.
    + intros z Fz Lz. cbn [lower] in Lz. unfold density. destruct (Z_lt_dec z (lower i)) as [L|L].
      * assert (Eq : plf_at (rev ((set_upper i x, f) :: out')) z = plf_at (rev out') z).
        { cbn [rev]. destruct Fz. apply (plf_at_app _ _ (- ORD_INF) (lower i)); try assumption; try lia; unfold finite in *; try lia. }
        rewrite Eq. apply Sde; assumption.
      * assert (Eq : plf_at (rev ((set_upper i x, f) :: out')) z = Some f).
        { apply (chain_at _ (- ORD_INF) x (set_upper i x) f z Ch); unfold finite in *; try lia.
          - apply in_rev. rewrite rev_involutive. left. reflexivity.
          - cbn. lia. }
        rewrite Eq, (Ed z Fz Lz), (Sgr z Fz ltac:(lia)), <- Ss. destruct f; reflexivity.
    + intros z Fz Lz. cbn [lower] in Lz. rewrite edens_all; [rewrite Dm; reflexivity|]. eapply Forall_impl; [|exact Dn]. cbn. intros; lia.
  - (* the last piece goes on *)
    assert (Same : (m2 == m)%Q /\ (c2 == c)%Q).
    { apply andb_false_iff in B. destruct B as [B|B]; apply orb_false_iff in B; destruct B as (B1 & B2); apply negb_false_iff in B1, B2.
      - unfold Qz in *. apply Qeq_bool_iff in B1, B2. assert (Y0 : (y == 0)%Q).
        { unfold c2 in B1. rewrite B2 in B1. lra. }
        destruct Y as (Y1 & Y2). assert (m == 0)%Q.
        { destruct (Qlt_le_dec 0 m) as [K|K]; [specialize (Y2 K); lra|lra]. }
        split; [lra|]. unfold y in Y0. rewrite H in Y0. lra.
      - apply Qeq_bool_iff in B1, B2. rewrite B1, B2, Ss, Si. split; reflexivity. }
    destruct Same as (Q1 & Q2).
    constructor; try assumption; try reflexivity.
    + apply Forall_forall. intros e I. apply Beyond. tauto.
    + apply Forall_forall. intros e I. apply Beyond. tauto.
    + constructor; [exact Af|]. rewrite So in Sa. exact (Forall_inv_tail Sa).
    + rewrite Ss, Q1. reflexivity.
    + rewrite Si, Q2. reflexivity.
    + cbn. lia.
    + intros z Fz Lz. cbn [lower set_upper] in Lz. destruct (Z_lt_dec z x) as [L|L].
      * unfold dn. rewrite eval_app, (eval_none tk z).
        -- rewrite (Saf z Fz Lz), Q1, Q2. lra.
        -- eapply Forall_impl; [|exact Tk]. cbn. intros; lia.
      * rewrite eval_all; [rewrite Dm, Dc; reflexivity|]. eapply Forall_impl; [|exact Dn]. cbn. intros; lia.
    + intros L0 U0. exfalso. apply (Ends' L0 U0). auto.
    + rewrite So in Sst. inversion Sst; subst. constructor; assumption.
    + destruct Sf as [(N & F0 & Lw)|(k & L & N)].
      * left. auto.
      * right. exists k. split; [|exact N]. destruct out' as [|o out']; [congruence|]. rewrite <- L. apply last_dflt.
    + intro N. destruct (Ssm N) as (S1 & _). destruct (Sn N) as (O0 & S3). split; [|exact S3].
      rewrite So in S1. destruct out' as [|[j h] out']; [exact I|]. cbn [smooth set_upper lower] in *. exact S1.
    + intros z Fz Lz. cbn [lower set_upper] in Lz. destruct (Z_lt_dec z x) as [L|L].
      * unfold dn. rewrite edens_app, (edens_none tk z).
        -- rewrite (Sgr z Fz Lz), Q1. lra.
        -- eapply Forall_impl; [|exact Tk]. cbn. intros; lia.
      * rewrite edens_all; [rewrite Dm; reflexivity|]. eapply Forall_impl; [|exact Dn]. cbn. intros; lia.
Qed.

Lemma sweep_step : forall fuel lo up m c i f out', lo <> [] \/ up <> [] ->
  sweep (S fuel) lo up m c ((i, f) :: out') =
  (let '(lo', pivot, m1, offset) := lower_loop lo (first_pos up) None m 0 in
   let '(up', pivot, m_) := upper_loop up (first_pos lo') pivot m1 in
   match pivot with
   | None => sweep fuel lo' up' m c ((i, f) :: out')
   | Some x =>
       let y := (m * dval x + c)%Q in
       let m2 := if Qltb tiny (Qabs m_) then m_ else 0%Q in
       let c2 := (y - m2 * dval x + offset)%Q in
       if (negb (Qz c2) || negb (Qz m2)) && (negb (Qeq_bool m2 (slope f)) || negb (Qeq_bool c2 (intercept f)))
       then do k <- mk_cs x ORD_INF INC EXC;
            sweep fuel lo' up' m2 c2 ((k, if Qltb tiny (Qabs m2) then FLin m2 c2 else FConst c2) :: (set_upper i x, f) :: out')
       else sweep fuel lo' up' m2 c2 ((set_upper i x, f) :: out')
   end).
Proof. intros fuel [|a lo] [|b up] m c i f out' N; try reflexivity. destruct N; congruence. Qed.

Lemma sweep_spec : forall fuel E NJ lo up m c out done cur i f out',
  (length lo + length up <= fuel)%nat -> grain E -> state E NJ lo up m c out done cur i f out' -> ends lo up ->
  Forall good_low lo -> Forall good_up up -> StronglySorted by_pos lo -> StronglySorted by_pos up ->
  exists out1, sweep fuel lo up m c out = Ok out1 /\ finished E NJ out1.
Proof.
  induction fuel as [|fuel IH]; intros E NJ lo up m c out done cur i f out' Lf G St En Gl Gu Sl Su.
  - destruct lo; [|cbn in Lf; lia]. destruct up; [|cbn in Lf; lia]. exists out. split; [reflexivity|]. unfold finished. eauto 10.
  - assert (D : (lo = [] /\ up = []) \/ (lo <> [] \/ up <> [])) by (destruct lo; [destruct up; [left|right; right; discriminate]|right; left; discriminate]; auto).
    destruct D as [(-> & ->)|NE].
    + exists out. split; [reflexivity|]. unfold finished. eauto 10.
    + rewrite (st_out _ _ _ _ _ _ _ _ _ _ _ _ St).
      rewrite (sweep_step fuel lo up m c i f out' NE).
      destruct (round lo up m Gl Gu Sl Su NE) as (tl & tu & lo' & up' & x & m1 & off & m_ & E1 & E2 & El & Eu & NT & At & Be & Fx & Hm & Ho).
      rewrite E1, E2. cbn zeta.
      pose proof (step E NJ lo up m c out done cur i f out' tl tu lo' up' x m_ off G St En Gl Gu El Eu NT At Be Fx Hm Ho) as Stp. cbn zeta in Stp.
      assert (Lf' : (length lo' + length up' <= fuel)%nat).
      { rewrite El, Eu, !app_length in Lf. destruct NT as [N|N]; [destruct tl|destruct tu]; try congruence; cbn in Lf; lia. }
      assert (En' : ends lo' up').
      { intros e h I K. destruct (En e h) as (e' & I' & L'); [rewrite El; apply in_or_app; auto|exact K|]. exists e'. split; [|exact L'].
        rewrite Eu in I'. apply in_app_or in I'. destruct I' as [I'|I']; [|exact I']. exfalso. pose proof (At e' (or_intror I')). pose proof (Be e (or_introl I)). lia. }
      assert (Gl' : Forall good_low lo') by (rewrite El in Gl; apply Forall_app in Gl; tauto).
      assert (Gu' : Forall good_up up') by (rewrite Eu in Gu; apply Forall_app in Gu; tauto).
      assert (Sl' : StronglySorted by_pos lo') by (rewrite El in Sl; apply SS_app_r in Sl; exact Sl).
      assert (Su' : StronglySorted by_pos up') by (rewrite Eu in Su; apply SS_app_r in Su; exact Su).
      destruct (_ && _).
      * unfold mk_cs. destruct Fx as (F1 & F2). replace (ORD_INF <? x) with false by (symmetry; apply Z.ltb_ge; lia).
        cbn [bind]. eapply IH; eassumption.
      * eapply IH; eassumption.
Qed.

(** The result of merging, in terms of the events. *)
Record merged_as (E : list ev) (NJ : Prop) (last : Z) (p : plf) : Prop := {
  ma_fin : finite last;
  ma_chain : chain (- ORD_INF) p ORD_INF;
  ma_affine : affines p;
  ma_steep : Forall steep p;
  ma_first : exists i r, p = (i, FConst 0) :: r /\ r <> [];
  ma_before : forall x, finite x -> x < last -> plf_is p x (eval E x);
  ma_after : forall x, finite x -> last <= x -> plf_is p x 1;
  ma_all : forall e, In e E -> fst e <= last;
  ma_some : exists e, In e E /\ fst e = last;
  ma_last : exists r v, p = r ++ [(CS last ORD_INF INC EXC, FConst v)] /\ (v == 1)%Q;
  ma_smooth : NJ -> (dsl E == 0)%Q -> (cst E == 1)%Q -> smooth (rev p);
  ma_dens : forall x, finite x -> (density p x == if x <? last then edens E x else 0)%Q
}.

Lemma drop_tail_steep : forall out, Forall steep out -> drop_tail out = out.
Proof.
  intros [|[i f] [|s out]] F; try reflexivity. cbn [drop_tail]. pose proof (Forall_inv F) as S. unfold steep in S. cbn [snd] in S.
  destruct f as [|v|m c|a b c]; cbn [slope]; try (replace (Qz 0) with true by reflexivity; rewrite andb_false_r; reflexivity).
  unfold Qltb. destruct (Qltb_spec tiny (Qabs m)) as [T|T]; [reflexivity|]. exfalso. apply T. rewrite Qabs_pos; [exact S|unfold tiny in S; lra].
Qed.

Lemma rev_last : forall {A} (l : list A) d x, last l d = x -> l <> [] -> exists r, rev l = x :: r.
Proof.
  intros A l d x E N. destruct (exists_last N) as (l' & a & ->). rewrite last_last in E. subst a. exists (rev l'). apply rev_unit.
Qed.

Lemma finish : forall E NJ out, finished E NJ out ->
  exists p last, ensure_right_one (drop_tail out) = Ok (rev p) /\ merged_as E NJ last p.
Proof.
  intros E NJ out (done & m & c & cur & i & f & out' & St).
  destruct St as [P D Lo Up Sm Sc Sp Sv So Sa Ss Si Sl Slf Srt Sch Sb Saf Se Sst Sf Ssm Sde Sgr].
  rewrite (drop_tail_steep out Sst). destruct (Se eq_refl eq_refl) as (Ei & Fc & Ex). cbn [map app] in P. rewrite app_nil_r in P.
  subst i. cbn [lower upper left right] in *. subst out.
  assert (Af : affine f) by exact (Forall_inv Sa).
  assert (N : out' <> []). { destruct Sf as [(_ & _ & L)|(k & _ & N)]; [|exact N]. destruct Fc as (F1 & _). lia. }
  assert (Fst : exists k r, rev out' = (k, FConst 0) :: r).
  { destruct Sf as [(_ & _ & L)|(k & L & _)]; [destruct Fc as (F1 & _); lia|]. destruct (rev_last out' _ _ L N) as (r & R). eauto. }
  assert (K : forall h, affine h -> (forall q, fn_is h q 1) -> steep (CS cur ORD_INF INC EXC, h) -> (exists v, h = FConst v /\ (v == 1)%Q) ->
              ((NJ -> (dsl E == 0)%Q -> (cst E == 1)%Q -> smooth ((CS cur ORD_INF INC EXC, h) :: out'))) ->
              merged_as E NJ cur (rev out' ++ [(CS cur ORD_INF INC EXC, h)])).
  { intros h Ah Hh Hs (v & Hv & V1) Hm.
    assert (Ch : chain (- ORD_INF) (rev out' ++ [(CS cur ORD_INF INC EXC, h)]) ORD_INF).
    { apply chain_app with cur; [exact Sch|]. cbn [chain upper]. destruct Fc as (F1 & F2). replace (cur =? - ORD_INF) with false by (symmetry; apply Z.eqb_neq; lia).
      split; [reflexivity|]. split; [lia|reflexivity]. }
    constructor; try assumption.
    - unfold affines. apply Forall_app. split; [apply Forall_rev; exact (Forall_inv_tail Sa)|constructor; [exact Ah|constructor]].
    - apply Forall_app. split; [apply Forall_rev; exact (Forall_inv_tail Sst)|constructor; [exact Hs|constructor]].
    - destruct Fst as (k & r & R). rewrite R. exists k, (r ++ [(CS cur ORD_INF INC EXC, h)]). split; [reflexivity|]. destruct r; discriminate.
    - intros x Fx Lx. refine (proj2 (plf_is_ext _ _ x _ _) (Sb x Fx Lx)).
      destruct Fx, Fc. apply (plf_at_app _ _ (- ORD_INF) cur); unfold finite; try assumption; try lia.
    - intros x Fx Lx. apply (plf_is_of _ x h); [|apply Hh].
      destruct Fx, Fc. apply (chain_at _ (- ORD_INF) ORD_INF (CS cur ORD_INF INC EXC) h x Ch); unfold finite; cbn [lower upper]; try lia.
      apply in_or_app. right. left. reflexivity.
    - intros e I. rewrite Forall_forall in D. apply D. eapply Permutation_in; eassumption.
    - exists (rev out'), v. rewrite Hv. auto.
    - intros a b d. rewrite rev_app_distr, rev_involutive. cbn [rev app]. apply Hm; assumption.
    - intros x Fx. unfold density. destruct (Z.ltb_spec x cur) as [Lx|Lx].
      + assert (Eq : plf_at (rev out' ++ [(CS cur ORD_INF INC EXC, h)]) x = plf_at (rev out') x).
        { destruct Fx, Fc. apply (plf_at_app _ _ (- ORD_INF) cur); unfold finite; try assumption; try lia. }
        rewrite Eq. apply Sde; assumption.
      + assert (Eq : plf_at (rev out' ++ [(CS cur ORD_INF INC EXC, h)]) x = Some h).
        { destruct Fx, Fc. apply (chain_at _ (- ORD_INF) ORD_INF (CS cur ORD_INF INC EXC) h x Ch); unfold finite; cbn [lower upper]; try lia.
          apply in_or_app. right. left. reflexivity. }
        rewrite Eq, Hv. reflexivity. }
  assert (Cst : forall v, (v == 1)%Q -> (forall q, fn_is (FConst v) q 1)).
  { intros v Ev q. exists v. split; [reflexivity|exact Ev]. }
  assert (Sm1 : NJ -> (dsl E == 0)%Q -> (cst E == 1)%Q -> forall h, (forall q, fn_is h q 1) -> affine h -> smooth ((CS cur ORD_INF INC EXC, h) :: out')).
  { intros nj d0 c1 h Hh Ah. destruct (Ssm nj) as (S1 & _). destruct out' as [|[j g] out']; [congruence|]. cbn [smooth lower] in *. destruct S1 as (S1 & S2). split; [|exact S2].
    rewrite <- S1. pose proof (fn_is_unique _ _ _ _ (fn_lin h (dval cur) Ah) (Hh (dval cur))) as Eq. rewrite Eq. unfold lin. rewrite Ss, Si, Sm, Sc.
    assert (E1 : (dsl done == dsl E)%Q) by (symmetry; unfold dsl; apply Qsum_perm, Permutation_map; exact P).
    rewrite E1, <- (cst_perm _ _ P), d0, c1. lra. }
  assert (One : forall q, fn_is (FConst 1) q 1) by (apply Cst; reflexivity).
  assert (Res1 : exists p, Ok ((CS cur ORD_INF INC EXC, FConst 1) :: out') = Ok (rev p) /\ merged_as E NJ cur p).
  { exists (rev out' ++ [(CS cur ORD_INF INC EXC, FConst 1)]). split; [rewrite rev_app_distr, rev_involutive; reflexivity|].
    apply K; [exact I|exact One|exact I|exists 1%Q; split; reflexivity|]. intros a b d. apply (Sm1 a b d); [exact One|exact I]. }
  assert (Keep : forall v, f = FConst v -> (v == 1)%Q -> exists p, Ok ((CS cur ORD_INF INC EXC, f) :: out') = Ok (rev p) /\ merged_as E NJ cur p).
  { intros v -> Ev. exists (rev out' ++ [(CS cur ORD_INF INC EXC, FConst v)]). split; [rewrite rev_app_distr, rev_involutive; reflexivity|].
    apply K; [exact I|apply Cst; exact Ev|exact I|exists v; auto|]. intros a b d. apply (Sm1 a b d); [apply Cst; exact Ev|exact I]. }
  pose proof (Forall_inv Sst) as Stf. unfold steep in Stf. cbn [snd] in Stf.
  cbn [ensure_right_one]. destruct f as [|v|a b|? ? ?]; cbn in Af; try contradiction; cbn [fn_intersection bind lower].
  - destruct (Qeqb_spec v 1) as [Ev|Ev].
    + destruct (Keep v eq_refl Ev) as (p & E1 & M). exists p, cur. auto.
    + destruct Res1 as (p & E1 & M). exists p, cur. auto.
  - unfold Qz. destruct (Qeqb_spec a 0) as [Ea|Ea]; [unfold tiny in Stf; lra|].
    destruct Res1 as (p & E1 & M). exists p, cur. auto.
Qed.

Lemma init_state : forall E (NJ : Prop) lo up, Permutation E (map low_ev lo ++ map up_ev up) -> Forall good_low lo -> Forall good_up up -> (lo <> [] \/ up <> []) ->
  (NJ -> no_step lo) -> state E NJ lo up 0 0 [(RR, FConst 0)] [] (- ORD_INF) RR (FConst 0) [].
Proof.
  intros E NJ lo up P Gl Gu NE N. constructor; cbn [app]; try reflexivity; try assumption; try (unfold dsl, cst, eval; cbn; lra); try (constructor; fail).
  - eapply Forall_impl; [|exact Gl]. intros e ((F & _) & _). exact F.
  - eapply Forall_impl; [|exact Gu]. intros e ((F & _) & _). exact F.
  - repeat constructor.
  - intros x (F1 & F2) L. exfalso. unfold RR in L. cbn [lower] in L. lia.
  - intros -> ->. destruct NE; congruence.
  - repeat constructor.
  - left. auto.
  - intro nj. split; [exact I|auto].
  - intros x (F1 & _) L. unfold RR in L. cbn [lower] in L. lia.
Qed.
