Require Import QArith Qabs Lqa List Bool Arith Lia Setoid.
Require Import Verif.Base Verif.NumBase Verif.GaussModel Verif.GaussSpec.
Import ListNotations.
Open Scope Q_scope.

Definition sumx (l : list (Q * vec)) j := Qsum (map (fun s => fst s * snd s j) l).
Definition sumxx (l : list (Q * vec)) j k := Qsum (map (fun s => fst s * snd s j * snd s k) l).
Definition positive (l : list (Q * vec)) := Forall (fun s => 0 < fst s) l.

Lemma weight_app : forall a b, weight (a ++ b) == weight a + weight b.
Proof. intros. unfold weight. rewrite map_app. apply Qsum_app. Qed.
Lemma weight_sq_app : forall a b, weight_sq (a ++ b) == weight_sq a + weight_sq b.
Proof. intros. unfold weight_sq. rewrite map_app. apply Qsum_app. Qed.
Lemma sumx_app : forall a b j, sumx (a ++ b) j == sumx a j + sumx b j.
Proof. intros. unfold sumx. rewrite map_app. apply Qsum_app. Qed.
Lemma sumxx_app : forall a b j k, sumxx (a ++ b) j k == sumxx a j k + sumxx b j k.
Proof. intros. unfold sumxx. rewrite map_app. apply Qsum_app. Qed.
Lemma weight_one : forall w x, weight [(w, x)] == w.
Proof. intros. unfold weight. cbn. lra. Qed.
Lemma weight_sq_one : forall w x, weight_sq [(w, x)] == w * w.
Proof. intros. unfold weight_sq. cbn. lra. Qed.
Lemma sumx_one : forall w x j, sumx [(w, x)] j == w * x j.
Proof. intros. unfold sumx. cbn. lra. Qed.
Lemma sumxx_one : forall w x j k, sumxx [(w, x)] j k == w * x j * x k.
Proof. intros. unfold sumxx. cbn. lra. Qed.
Lemma weight_nonneg : forall l, positive l -> 0 <= weight l.
Proof. intros l P. unfold weight. apply Qsum_nonneg. apply Forall_map. eapply Forall_impl; [|exact P]. cbn. intros; lra. Qed.
Lemma weight_pos : forall l, positive l -> l <> [] -> 0 < weight l.
Proof.
  intros [|s l] P N; [contradiction|]. pose proof (Forall_inv P) as H. pose proof (weight_nonneg l (Forall_inv_tail P)). cbn beta in H. unfold weight in *. cbn [map Qsum]. lra.
Qed.
Lemma mean_sum : forall l j, positive l -> weight l * mean_of l j == sumx l j.
Proof.
  intros [|s l] j P; [unfold weight, sumx; cbn; lra|]. pose proof (weight_pos (s :: l) P ltac:(discriminate)). unfold mean_of. fold (sumx (s :: l) j). field. lra.
Qed.
Lemma scatter_sum : forall l j k, positive l -> scatter l j k == sumxx l j k - weight l * mean_of l j * mean_of l k.
Proof.
  intros l j k P. unfold scatter. set (a := mean_of l j). set (b := mean_of l k).
  assert (E : forall l' : list (Q * vec), Qsum (map (fun s : Q * vec => fst s * (snd s j - a) * (snd s k - b)) l') == sumxx l' j k - b * sumx l' j - a * sumx l' k + weight l' * a * b).
  { unfold sumxx, sumx, weight. induction l' as [|s l' IH]; cbn [map Qsum]; [ring|]. rewrite IH.
 ring. }
  assert (A : sumx l j == weight l * a) by (symmetry; apply mean_sum; exact P). assert (B : sumx l k == weight l * b) by (symmetry; apply mean_sum; exact P).
  rewrite E, A, B. ring.
Qed.
Lemma scatter_sym : forall l j k, scatter l j k == scatter l k j.
Proof. intros. unfold scatter. apply Qsum_map_ext. intros. ring. Qed.
Lemma cov_sym : forall l j k, cov_of l j k == cov_of l k j.
Proof. intros [|a [|b l]] j k; try reflexivity. unfold cov_of. rewrite (scatter_sym _ j k). reflexivity. Qed.
Lemma scatter_zero : forall l j k, positive l -> scatter l k k == 0 -> scatter l j k == 0.
Proof.
  intros l j k P. unfold scatter. generalize (mean_of l j) (mean_of l k). intros a b. induction l as [|s l IH]; intro Z; [reflexivity|]. cbn [map Qsum] in *.
  pose proof (Forall_inv P) as H. cbn beta in H. assert (S0 : 0 <= (snd s k - b) * (snd s k - b)) by (destruct (Qlt_le_dec (snd s k - b) 0); nra).
  assert (N : 0 <= Qsum (map (fun s0 => fst s0 * (snd s0 k - b) * (snd s0 k - b)) l)).
  { apply Qsum_nonneg. apply Forall_map. eapply Forall_impl; [|exact (Forall_inv_tail P)]. cbn beta. intros t Ht. assert (0 <= (snd t k - b) * (snd t k - b)) by (destruct (Qlt_le_dec (snd t k - b) 0); nra). nra. }
  assert (T : 0 <= fst s * (snd s k - b) * (snd s k - b)) by nra.
  rewrite (IH (Forall_inv_tail P)) by lra. assert (Z1 : fst s * ((snd s k - b) * (snd s k - b)) == 0) by lra.
  apply Qmult_integral in Z1. destruct Z1 as [Z1|Z1]; [lra|]. apply Qmult_integral in Z1. assert (Z2 : snd s k - b == 0) by tauto. rewrite Z2. ring.
Qed.
(** At least two positive weights: the squares do not make up the square. *)
Lemma sq_le : forall l, positive l -> weight_sq l <= weight l * weight l.
Proof.
  induction l as [|s l IH]; intro P; [unfold weight, weight_sq; cbn; lra|]. pose proof (Forall_inv P) as H. cbn beta in H. pose proof (IH (Forall_inv_tail P)). pose proof (weight_nonneg l (Forall_inv_tail P)).
  unfold weight, weight_sq in *. cbn [map Qsum]. nra.
Qed.
Lemma sq_lt : forall s t l, positive (s :: t :: l) -> weight_sq (s :: t :: l) < weight (s :: t :: l) * weight (s :: t :: l).
Proof.
  intros s t l P. pose proof (Forall_inv P) as H. cbn beta in H. pose proof (sq_le (t :: l) (Forall_inv_tail P)). pose proof (weight_pos (t :: l) (Forall_inv_tail P) ltac:(discriminate)).
  unfold weight, weight_sq in *. cbn [map Qsum] in *. nra.
Qed.
Lemma many : forall l : list (Q * vec), l = [] \/ (exists s, l = [s]) \/ exists s t l', l = s :: t :: l'.
Proof. intros [|s [|t l]]; eauto. right. right. eauto. Qed.
(** The scatter in terms of the covariance. *)
Lemma cov_scatter : forall l j k, positive l -> l <> [] -> cov_of l j k * weight l * (1 - weight_sq l / (weight l * weight l)) == scatter l j k.
Proof.
  intros l j k P N. pose proof (weight_pos l P N) as W. destruct (many l) as [->|[(s & ->)|(s & t & l' & ->)]]; [contradiction| |].
  - rewrite (scatter_sum _ _ _ P). pose proof (mean_sum [s] j P). pose proof (mean_sum [s] k P). destruct s as [w x]. unfold cov_of. rewrite sumxx_one, weight_one in *. rewrite sumx_one in *.
    assert (M1 : mean_of [(w, x)] j == x j) by (apply (Qmult_inj_l _ _ w); [lra|lra]). assert (M2 : mean_of [(w, x)] k == x k) by (apply (Qmult_inj_l _ _ w); [lra|lra]). rewrite M1, M2. ring.
  - pose proof (sq_lt s t l' P). set (l := s :: t :: l') in *. change (cov_of l j k) with (scatter l j k / (weight l - weight_sq l / weight l)).
    assert (D : 0 < weight l - weight_sq l / weight l). { assert (weight_sq l / weight l < weight l) by (apply Qlt_shift_div_r; lra). lra. }
    field. split; [lra|]. lra.
Qed.
Lemma cov_char : forall s t l j k c, positive (s :: t :: l) ->
  c == scatter (s :: t :: l) j k / (weight (s :: t :: l) * (1 - weight_sq (s :: t :: l) / (weight (s :: t :: l) * weight (s :: t :: l)))) -> c == cov_of (s :: t :: l) j k.
Proof.
  intros s t l' j k c P E. pose proof (sq_lt s t l' P). pose proof (weight_pos (s :: t :: l') P ltac:(discriminate)). set (l := s :: t :: l') in *. change (cov_of l j k) with (scatter l j k / (weight l - weight_sq l / weight l)). rewrite E.
  assert (D : 0 < weight l - weight_sq l / weight l). { assert (weight_sq l / weight l < weight l) by (apply Qlt_shift_div_r; lra). lra. }
  field. split; [lra|]. lra.
Qed.

(** ** Zeroing small variances *)
Lemma prec_pos : 0 < PRECISION.
Proof. reflexivity. Qed.
Section Zero.
Variables (d : nat) (T : mat).
Hypothesis T_small : forall k, (k < d)%nat -> T k k < PRECISION -> forall j, (j < d)%nat -> T j k == 0 /\ T k j == 0.
Definition meq (m : mat) := forall j k, (j < d)%nat -> (k < d)%nat -> m j k == T j k.
Lemma zero_at_meq : forall m i, (i < d)%nat -> meq m -> Qltb (m i i) PRECISION = true -> meq (zero_at m i).
Proof.
  intros m i Hi M L j k Hj Hk. unfold zero_at. unfold Qltb in L. destruct (Qltb_spec (m i i) PRECISION) as [L'|L']; [|discriminate L]. rewrite (M i i Hi Hi) in L'.
  destruct (Nat.eqb_spec j i) as [->|]; cbn [orb]; [symmetry; apply (T_small i Hi L' k Hk)|]. destruct (Nat.eqb_spec k i) as [->|]; [symmetry; apply (T_small i Hi L' j Hj)|apply M; assumption].
Qed.
Lemma zero_step_meq : forall j m k, (j < d)%nat -> (k < d)%nat -> meq m -> meq (zero_step j m k).
Proof.
  intros j m k Hj Hk M. unfold zero_step. assert (M1 : meq (if Qltb (m k k) PRECISION then zero_at m k else m)) by (destruct (Qltb (m k k) PRECISION) eqn:E; [apply zero_at_meq; assumption|exact M]).
  set (m1 := if Qltb (m k k) PRECISION then zero_at m k else m) in *. cbv zeta. destruct (Qltb (m1 j j) PRECISION) eqn:E; [apply zero_at_meq; assumption|exact M1].
Qed.
Lemma zero_small_meq : forall m, meq m -> meq (zero_small d m).
Proof.
  intros m M. unfold zero_small. assert (In1 : forall j, In j (seq 0 d) -> (j < d)%nat) by (intros j I; apply in_seq in I; lia).
  assert (G : forall js, (forall j, In j js -> (j < d)%nat) -> forall m, meq m -> meq (fold_left (fun m j => fold_left (zero_step j) (seq 0 d) m) js m)).
  { induction js as [|j js IH]; intros Hj m' M'; [exact M'|]. cbn [fold_left]. apply IH; [intros i I; apply Hj; right; exact I|].
    assert (G : forall ks, (forall k, In k ks -> (k < d)%nat) -> forall m, meq m -> meq (fold_left (zero_step j) ks m)).
    { induction ks as [|k ks IHk]; intros Hk m'' M''; [exact M''|]. cbn [fold_left]. apply IHk; [intros i I; apply Hk; right; exact I|]. apply zero_step_meq; [apply Hj; left; reflexivity|apply Hk; left; reflexivity|exact M'']. }
    apply G; assumption. }
  apply G; assumption.
Qed.
End Zero.

(** ** One update *)
Lemma app_many : forall (p : list (Q * vec)) s, p <> [] -> exists a b l, p ++ [s] = a :: b :: l.
Proof. intros [|a [|b p]] s H; [contradiction| |]; cbn [app]; eauto. Qed.
Lemma mean_snoc : forall p w x j, positive (p ++ [(w, x)]) -> mean_of (p ++ [(w, x)]) j == (weight p * mean_of p j + w * x j) / (weight p + w).
Proof.
  intros p w x j P. assert (Pp : positive p) by (apply Forall_app in P; apply P). pose proof (weight_pos _ P ltac:(destruct p; discriminate)) as W. pose proof (mean_sum _ j P) as M. pose proof (mean_sum p j Pp) as Mp.
  rewrite weight_app, weight_one in *. rewrite sumx_app, sumx_one in M. rewrite <- Mp in M. apply (Qmult_inj_l _ _ (weight p + w)); [lra|]. rewrite M. field. lra.
Qed.
Lemma scatter_snoc : forall p w x j k, positive (p ++ [(w, x)]) ->
  scatter (p ++ [(w, x)]) j k == scatter p j k + weight p * mean_of p j * mean_of p k - (weight p + w) * mean_of (p ++ [(w, x)]) j * mean_of (p ++ [(w, x)]) k + w * x j * x k.
Proof.
  intros p w x j k P. assert (Pp : positive p) by (apply Forall_app in P; apply P). rewrite (scatter_sum _ _ _ P), (scatter_sum p j k Pp), sumxx_app, sumxx_one, weight_app, weight_one. ring.
Qed.
Lemma small_zero : forall d l, positive l -> (forall j, (j < d)%nat -> cov_of l j j == 0 \/ PRECISION <= cov_of l j j) ->
  forall k, (k < d)%nat -> cov_of l k k < PRECISION -> forall j, (j < d)%nat -> cov_of l j k == 0 /\ cov_of l k j == 0.
Proof.
  intros d l P S k Hk L j Hj. assert (Z : cov_of l j k == 0).
  { destruct (many l) as [->|[(s & ->)|(s & t & l' & E)]]; try reflexivity. destruct (S k Hk) as [Z|Z]; [|lra].
    assert (N : l <> []) by (rewrite E; discriminate). pose proof (cov_scatter l k k P N) as C. rewrite Z in C. assert (Sk : scatter l k k == 0) by (rewrite <- C; ring).
    apply (scatter_zero l j k P) in Sk. subst l. unfold cov_of. rewrite Sk. unfold Qdiv. ring. }
  split; [exact Z|rewrite cov_sym; exact Z].
Qed.
Lemma update_describes : forall d g p w x, describes d g p -> positive (p ++ [(w, x)]) ->
  (g_dim g = Some d \/ p = [] /\ g_dim g = None) -> g_list g = false ->
  (forall j, (j < d)%nat -> x j == mean_of p j \/ PRECISION < Qabs (x j - mean_of p j)) ->
  (forall j, (j < d)%nat -> cov_of (p ++ [(w, x)]) j j == 0 \/ PRECISION <= cov_of (p ++ [(w, x)]) j j) ->
  exists g', update g d x w = Ok g' /\ describes d g' (p ++ [(w, x)]) /\ g_dim g' = Some d /\ g_list g' = false /\ g_n g' = S (g_n g).
Proof.
  intros d g p w x (Dw & Dq & Dm & Dc) P Hd Hl Hx Hv. assert (Pp : positive p) by (apply Forall_app in P; apply P).
  assert (Hw : 0 < w). { apply Forall_app in P. destruct P as (_ & P). exact (Forall_inv P). }
  pose proof (weight_nonneg p Pp) as W0. set (l := p ++ [(w, x)]) in *. assert (Nl : l <> []) by (unfold l; destruct p; discriminate).
  assert (Wl : weight l == weight p + w) by (unfold l; rewrite weight_app, weight_one; reflexivity).
  assert (Ql : weight_sq l == weight_sq p + w * w) by (unfold l; rewrite weight_sq_app, weight_sq_one; reflexivity).
  assert (MS : exists om oc, match g_dim g with None => Ok ((fun _ => 0 : Q), (fun _ _ => 0 : Q)) | Some n => if g_list g then Err AttributeError else if (n =? d)%nat then Ok (g_mean g, g_cov g) else Err AssertionError end = Ok (om, oc) /\
    (forall j, (j < d)%nat -> om j == mean_of p j) /\ (forall j k, (j < d)%nat -> (k < d)%nat -> oc j k == cov_of p j k)).
  { destruct Hd as [E|(-> & E)]; rewrite E.
    - rewrite Hl, Nat.eqb_refl. exists (g_mean g), (g_cov g). split; [reflexivity|]. split; assumption.
    - exists (fun _ => 0), (fun _ _ => 0). split; [reflexivity|]. split; reflexivity. }
  destruct MS as (om & oc & E & Hm & Hc). unfold update. rewrite E. cbn [bind]. cbv zeta.
  destruct (Qeqb_spec (g_w g + w) 0) as [Z|Z]; [rewrite Dw in Z; lra|]. eexists. split; [reflexivity|]. cbn [g_dim g_list g_n]. split; [|auto].
  set (sw := g_w g) in *. set (sq := g_wsq g) in *. set (sq' := (sw * sw * sq + w * w) / ((sw + w) * (sw + w))).
  set (dims := fun j => Qltb PRECISION (Qabs (x j - om j))). set (mean' := fun j => if dims j then (sw * om j + w * x j) / (sw + w) else om j).
  set (entry := fun j k => if dims k || dims j then
        (oc j k * sw * (1 - sq) + sw * om j * om k - (sw + w) * mean' j * mean' k
          + w * (if dims j then x j else om j) * (if dims k then x k else om k)) / ((sw + w) * (1 - sq'))
      else oc j k * sw * (1 - sq) / ((sw + w) * (1 - sq'))).
  assert (Sw : sw + w == weight l) by (rewrite Wl, Dw; reflexivity).
  assert (Wpos : 0 < weight l) by (rewrite Wl; lra).
  assert (Sq : sw * sw * sq == weight_sq p).
  { rewrite Dq, Dw. destruct p as [|s p']; [unfold weight, weight_sq; cbn; lra|]. pose proof (weight_pos (s :: p') Pp ltac:(discriminate)). field. lra. }
  assert (Sq' : sq' == weight_sq l / (weight l * weight l)) by (unfold sq'; rewrite Sq, Sw, Ql; reflexivity).
  assert (Xd : forall j, (j < d)%nat -> (if dims j then x j else om j) == x j).
  { intros j Hj. unfold dims, Qltb. destruct (Qltb_spec PRECISION (Qabs (x j - om j))) as [L|L]; [reflexivity|]. rewrite (Hm j Hj). destruct (Hx j Hj) as [X|X]; [symmetry; exact X|]. exfalso. apply L. rewrite (Hm j Hj). exact X. }
  assert (M' : forall j, (j < d)%nat -> mean' j == mean_of l j).
  { intros j Hj. unfold l. rewrite (mean_snoc p w x j P). unfold mean'. pose proof (Xd j Hj) as X. destruct (dims j).
    - rewrite Dw, (Hm j Hj). reflexivity.
    - rewrite <- X, <- (Hm j Hj). field. lra. }
  cbn [g_w g_wsq g_mean g_cov]. split; [exact Sw|]. split; [|split].
  - destruct l; [contradiction|]. exact Sq'.
  - exact M'.
  - assert (Cs : p = [] \/ p <> []) by (destruct p; [left; reflexivity|right; discriminate]). destruct Cs as [Ep|Np].
    + (* the first sample *)
      destruct (Qeqb_spec sq' 1) as [O|O].
      * intros j k Hj Hk. rewrite (Hc j k Hj Hk). unfold l. rewrite Ep. reflexivity.
      * exfalso. apply O. rewrite Sq', Wl, Ql, Ep. unfold weight, weight_sq. cbn [map Qsum]. field. lra.
    + destruct (app_many p (w, x) Np) as (a & b & l' & El). fold l in El.
      assert (Lt : weight_sq l < weight l * weight l) by (rewrite El; apply sq_lt; rewrite <- El; exact P).
      assert (Q1 : weight_sq l / (weight l * weight l) < 1) by (apply Qlt_shift_div_r; [nra|lra]).
      destruct (Qeqb_spec sq' 1) as [O|O]; [rewrite Sq' in O; lra|].
      assert (OC : forall j k, (j < d)%nat -> (k < d)%nat -> oc j k * sw * (1 - sq) == scatter p j k).
      { intros j k Hj Hk. rewrite (Hc j k Hj Hk), Dw. rewrite <- (cov_scatter p j k Pp Np). rewrite Dq. destruct p; [contradiction|reflexivity]. }
      assert (En : forall j k, (j < d)%nat -> (k < d)%nat -> entry j k == cov_of l j k).
      { intros j k Hj Hk. assert (K : entry j k == scatter l j k / (weight l * (1 - weight_sq l / (weight l * weight l)))).
        { pose proof (Xd j Hj) as Xj. pose proof (Xd k Hk) as Xk. pose proof (M' j Hj) as Mj. pose proof (M' k Hk) as Mk.
          assert (SC : scatter l j k == oc j k * sw * (1 - sq) + sw * om j * om k - (sw + w) * mean' j * mean' k + w * (if dims j then x j else om j) * (if dims k then x k else om k)).
          { unfold l. rewrite (scatter_snoc p w x j k P). fold l. rewrite (OC j k Hj Hk), Xj, Xk, Mj, Mk, (Hm j Hj), (Hm k Hk), Dw. reflexivity. }
          rewrite SC, <- Sq', <- Sw. unfold entry. destruct (dims k || dims j) eqn:D; [reflexivity|]. apply orb_false_iff in D. destruct D as (D1 & D2).
          unfold mean'. rewrite D1, D2. apply Qdiv_comp; [|reflexivity]. ring. }
        rewrite El in K |- *. apply cov_char; [rewrite <- El; exact P|exact K]. }
      intros j k Hj Hk. apply (zero_small_meq d (cov_of l)); [|  |exact Hj|exact Hk].
      * apply (small_zero d l P Hv).
      * intros j' k' Hj' Hk'. destruct (k' <=? j')%nat; [exact (En j' k' Hj' Hk')|]. exact (Qeq_trans _ _ _ (En k' j' Hk' Hj') (cov_sym l k' j')).
Qed.

Lemma separated_positive : forall d l, separated d l -> positive l.
Proof.
  intros d l H. apply Forall_forall. intros [w x] I. apply in_split in I. destruct I as (p & q & E). destruct (H p w x q E) as (W & _). exact W.
Qed.
Lemma separated_prefix : forall d p q, separated d (p ++ q) -> separated d p.
Proof. intros d p q H p' w x q' E. apply (H p' w x (q' ++ q)). rewrite E, <- app_assoc. reflexivity. Qed.
Lemma update_all_describes : forall d data p g, separated d (p ++ data) -> describes d g p -> (g_dim g = Some d \/ p = [] /\ g_dim g = None) -> g_list g = false ->
  exists g', update_all g d data = Ok g' /\ describes d g' (p ++ data) /\ g_list g' = false /\ (p ++ data <> [] -> g_dim g' = Some d) /\ g_n g' = (g_n g + length data)%nat.
Proof.
  intros d. induction data as [|[w x] data IH]; intros p g H D Hd Hl.
  - rewrite app_nil_r. exists g. split; [reflexivity|]. split; [exact D|]. split; [exact Hl|]. split; [|cbn; lia]. intro N. destruct Hd as [E|(E & _)]; [exact E|contradiction].
  - cbn [update_all]. destruct (H p w x data eq_refl) as (_ & Hx & Hv).
    assert (P1 : positive (p ++ [(w, x)])). { apply (separated_positive d). apply (separated_prefix d _ data). rewrite <- app_assoc. exact H. }
    destruct (update_describes d g p w x D P1 Hd Hl Hx Hv) as (g1 & E1 & D1 & G1 & L1 & N1). rewrite E1. cbn [bind].
    destruct (IH (p ++ [(w, x)]) g1) as (g' & E' & D' & L' & G' & N'); [rewrite <- app_assoc; exact H|exact D1|left; exact G1|exact L1|].
    rewrite <- app_assoc in D', G'. exists g'. split; [exact E'|]. split; [exact D'|]. split; [exact L'|]. split; [exact G'|]. cbn [length]. lia.
Qed.
Lemma fresh_describes : forall d, describes d fresh [].
Proof. intro d. split; [reflexivity|]. split; [reflexivity|]. split; reflexivity. Qed.

(** ** Retracting *)
Lemma perm_stats : forall p w x q, positive (p ++ (w, x) :: q) ->
  weight (p ++ (w, x) :: q) == weight (p ++ q) + w /\ weight_sq (p ++ (w, x) :: q) == weight_sq (p ++ q) + w * w /\
  (forall j, sumx (p ++ (w, x) :: q) j == sumx (p ++ q) j + w * x j) /\ (forall j k, sumxx (p ++ (w, x) :: q) j k == sumxx (p ++ q) j k + w * x j * x k).
Proof.
  intros p w x q P. change ((w, x) :: q) with ([(w, x)] ++ q). repeat split; intros.
  - rewrite !weight_app, weight_one. ring.
  - rewrite !weight_sq_app, weight_sq_one. ring.
  - rewrite !sumx_app, sumx_one. ring.
  - rewrite !sumxx_app, sumxx_one. ring.
Qed.
Lemma retract_describes : forall d g p w x q, describes d g (p ++ (w, x) :: q) -> positive (p ++ (w, x) :: q) -> g_dim g = Some d -> g_n g <> 0%nat -> p ++ q <> [] ->
  exists g', retract g d x w = Ok g' /\ describes d g' (p ++ q) /\ g_dim g' = Some d /\ g_n g' = g_n g.
Proof.
  intros d g p w x q (Dw & Dq & Dm & Dc) P Hd Hn N. destruct (perm_stats p w x q P) as (Ew & Eq & Ex & Exx). set (l := p ++ (w, x) :: q) in *. set (r := p ++ q) in *.
  assert (Pr : positive r). { unfold r, l in *. apply Forall_app in P. destruct P as (P1 & P2). apply Forall_app. split; [exact P1|exact (Forall_inv_tail P2)]. }
  assert (Nl : l <> []) by (unfold l; destruct p; discriminate).
  pose proof (weight_pos r Pr N) as Wr. pose proof (weight_pos l P Nl) as Wl.
  unfold retract. destruct (Nat.eqb_spec (g_n g) 0) as [Z|_]; [contradiction|]. rewrite Hd, Nat.eqb_refl. cbn [negb]. cbv zeta.
  assert (Sw : g_w g - w == weight r) by (rewrite Dw, Ew; ring). destruct (Qeqb_spec (g_w g - w) 0) as [Z|_]; [rewrite Sw in Z; lra|].
  assert (Dq' : g_wsq g == weight_sq l / (weight l * weight l)) by (rewrite Dq; destruct l; [contradiction|reflexivity]).
  set (sq' := (g_w g * g_w g * g_wsq g - w * w) / ((g_w g - w) * (g_w g - w))).
  assert (Sq' : sq' == weight_sq r / (weight r * weight r)).
  { unfold sq'. rewrite Sw, Dq', Dw. apply Qdiv_comp; [|reflexivity]. transitivity (weight_sq l - w * w); [field; lra|]. rewrite Eq. ring. }
  set (mean' := fun i => (g_w g * g_mean g i - w * x i) / (g_w g - w)).
  assert (M' : forall j, (j < d)%nat -> mean' j == mean_of r j).
  { intros j Hj. unfold mean'. rewrite Sw, Dw, (Dm j Hj). pose proof (mean_sum l j P) as M. rewrite (Ex j) in M. rewrite M. pose proof (mean_sum r j Pr) as Mr. rewrite <- Mr. field. lra. }
  assert (Sr : match r with [] => 0 | _ :: _ => weight_sq r / (weight r * weight r) end == weight_sq r / (weight r * weight r)) by (destruct r; [contradiction|reflexivity]).
  unfold Qltb. destruct (Qltb_spec sq' 1) as [L|L].
  - eexists. split; [reflexivity|]. cbn [g_dim g_n]. split; [|split; reflexivity]. unfold describes. cbn [g_w g_wsq g_mean g_cov]. split; [exact Sw|]. split; [rewrite Sr; exact Sq'|]. split; [exact M'|].
    intros j k Hj Hk. destruct (many r) as [E|[(s & E)|(s & t & r' & E)]]; [contradiction| |].
    + exfalso. rewrite Sq' in L. rewrite E in L. unfold weight, weight_sq in L. cbn [map Qsum] in L. rewrite E in Pr. pose proof (Forall_inv Pr) as Hs. cbn beta in Hs.
      assert (One : (fst s * fst s + 0) / ((fst s + 0) * (fst s + 0)) == 1) by (field; lra). lra.
    + rewrite E. apply cov_char; rewrite <- E; [exact Pr|]. rewrite <- Sq', <- Sw. apply Qdiv_comp; [|reflexivity].
      rewrite (scatter_sum r j k Pr). pose proof (cov_scatter l j k P Nl) as C. rewrite (scatter_sum l j k P), (Exx j k), <- Dq', <- (Dc j k Hj Hk), <- Dw in C. pose proof (M' j Hj) as Mj. pose proof (M' k Hk) as Mk. unfold mean' in Mj, Mk. cbv beta.
      rewrite C, Mj, Mk, (Dm j Hj), (Dm k Hk), Sw, Dw. ring.
  - eexists. split; [reflexivity|]. cbn [g_dim g_n]. split; [|split; reflexivity]. unfold describes. cbn [g_w g_wsq g_mean g_cov]. split; [exact Sw|]. split; [rewrite Sr; exact Sq'|]. split; [exact M'|].
    intros j k Hj Hk. destruct (many r) as [E|[(s & E)|(s & t & r' & E)]]; [contradiction| |].
    + rewrite E. reflexivity.
    + exfalso. apply L. rewrite Sq'. apply Qlt_shift_div_r; [nra|]. rewrite E. pose proof (sq_lt s t r' ltac:(rewrite <- E; exact Pr)). lra.
Qed.

(** ** Regression *)
Lemma residuals_split : forall l m b, positive l ->
  residuals l m b == scatter l 1 1 - 2 * m * scatter l 0 1 + m * m * scatter l 0 0 + weight l * ((mean_of l 1 - m * mean_of l 0 - b) * (mean_of l 1 - m * mean_of l 0 - b)).
Proof.
  intros l m b P. rewrite (scatter_sum l 1 1 P), (scatter_sum l 0 1 P), (scatter_sum l 0 0 P).
  assert (E : residuals l m b == sumxx l 1 1 - 2 * m * sumxx l 0 1 + m * m * sumxx l 0 0 - 2 * b * sumx l 1 + 2 * m * b * sumx l 0 + weight l * b * b).
  { clear P. unfold residuals, sumxx, sumx, weight. induction l as [|s l IH]; cbn [map Qsum]; [ring|]. rewrite IH. ring. }
  rewrite E, <- (mean_sum l 1 P), <- (mean_sum l 0 P). ring.
Qed.
Lemma scatter_nonneg : forall l j, positive l -> 0 <= scatter l j j.
Proof.
  intros l j P. unfold scatter. apply Qsum_nonneg. apply Forall_map. eapply Forall_impl; [|exact P]. cbn beta. intros t Ht.
  assert (0 <= (snd t j - mean_of l j) * (snd t j - mean_of l j)) by (destruct (Qlt_le_dec (snd t j - mean_of l j) 0); nra). nra.
Qed.
Lemma sq_nonneg : forall a : Q, 0 <= a * a.
Proof. intro a. destruct (Qlt_le_dec a 0); nra. Qed.
Lemma line_best : forall l m b m' b', positive l -> 0 < scatter l 0 0 -> m * scatter l 0 0 == scatter l 0 1 -> b == mean_of l 1 - m * mean_of l 0 -> residuals l m b <= residuals l m' b'.
Proof.
  intros l m b m' b' P V M B. rewrite (residuals_split l m b P), (residuals_split l m' b' P). pose proof (weight_nonneg l P) as W. rewrite B. pose proof (sq_nonneg (mean_of l 1 - m' * mean_of l 0 - b')) as S1. pose proof (sq_nonneg (m' - m)) as S2.
  set (u := mean_of l 1 - m' * mean_of l 0 - b') in *. set (c := scatter l 0 0) in *.
  assert (Z : mean_of l 1 - m * mean_of l 0 - (mean_of l 1 - m * mean_of l 0) == 0) by ring. rewrite Z. rewrite <- M.
  assert (0 <= c * ((m' - m) * (m' - m))) by nra. assert (0 <= weight l * (u * u)) by nra. lra.
Qed.
Lemma mean_ext : forall l l' j, weight l == weight l' -> sumx l j == sumx l' j -> positive l -> positive l' -> (l = [] <-> l' = []) -> mean_of l j == mean_of l' j.
Proof. intros [|a l] [|b l'] j W S P P' H; [reflexivity|destruct (proj1 H eq_refl); reflexivity|discriminate (proj2 H eq_refl)|]. unfold mean_of. fold (sumx (a :: l) j) (sumx (b :: l') j). rewrite W, S. reflexivity. Qed.
Definition map_data (f : Q -> Q) (l : list (Q * vec)) : list (Q * vec) := map (fun s => (fst s, fun j => f (snd s j))) l.
Lemma affine_stats : forall a c l, weight (map_data (fun v => a * v + c) l) == weight l /\ weight_sq (map_data (fun v => a * v + c) l) == weight_sq l /\
  (forall j, sumx (map_data (fun v => a * v + c) l) j == a * sumx l j + c * weight l).
Proof.
  intros a c l. unfold weight, weight_sq, sumx, map_data. induction l as [|s l (I1 & I2 & I3)]; cbn [map Qsum]; [repeat split; intros; ring|]. repeat split; intros; cbn [fst snd] in *.
  - rewrite I1. ring.
  - rewrite I2. ring.
  - rewrite (I3 j). ring.
Qed.
Lemma affine_mean : forall a c l j, positive l -> l <> [] -> mean_of (map_data (fun v => a * v + c) l) j == a * mean_of l j + c.
Proof.
  intros a c l j P N. destruct (affine_stats a c l) as (W & _ & X). pose proof (weight_pos l P N) as Wp.
  assert (P' : positive (map_data (fun v => a * v + c) l)) by (unfold map_data, positive; apply Forall_map; eapply Forall_impl; [|exact P]; cbn; auto).
  pose proof (mean_sum _ j P') as M. pose proof (mean_sum l j P) as Ml. rewrite W, (X j), <- Ml in M. apply (Qmult_inj_l _ _ (weight l)); [lra|]. rewrite M. ring.
Qed.
Lemma affine_cov : forall a c l j k, positive l -> cov_of (map_data (fun v => a * v + c) l) j k == a * a * cov_of l j k.
Proof.
  intros a c l j k P. destruct (many l) as [->|[(s & ->)|(s & t & l' & E)]]; [cbn; ring|cbn; ring|]. assert (N : l <> []) by (rewrite E; discriminate).
  destruct (affine_stats a c l) as (W & W2 & _).
  assert (Sc : scatter (map_data (fun v => a * v + c) l) j k == a * a * scatter l j k).
  { pose proof (affine_mean a c l j P N) as Mj. pose proof (affine_mean a c l k P N) as Mk. unfold scatter. set (mj := mean_of (map_data (fun v => a * v + c) l) j) in *. set (mk := mean_of (map_data (fun v => a * v + c) l) k) in *. clearbody mj mk.
    unfold map_data. rewrite map_map. cbn [fst snd]. rewrite <- Qsum_map_scale. apply Qsum_map_ext. intros u _. rewrite Mj, Mk. ring. }
  assert (C1 : forall l0, (exists s0 t0 r0, l0 = s0 :: t0 :: r0) -> cov_of l0 j k = scatter l0 j k / (weight l0 - weight_sq l0 / weight l0)) by (intros l0 (s0 & t0 & r0 & ->); reflexivity).
  rewrite (C1 l) by eauto. rewrite (C1 (map_data (fun v => a * v + c) l)) by (rewrite E; cbn [map_data map]; eauto). rewrite Sc, W, W2. unfold Qdiv. ring.
Qed.
