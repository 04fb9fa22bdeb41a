(** Correctness of introsort/heapsort and of bisect. *)
Require Import ZArith Bool List Arith Lia Permutation.
Require Import Verif.Base Verif.SortModel.
Import ListNotations.

(** The entries (key, index) in positions [lo .. lo+n). *)
Definition entry (a : arrays) (i : nat) : Z * nat := (Xf a i, samples a i).
Definition view (a : arrays) (lo n : nat) : list (Z * nat) := map (entry a) (seq lo n).
Definition sorted (a : arrays) (lo n : nat) : Prop :=
  forall i j, lo <= i -> i <= j -> j < lo + n -> (Xf a i <= Xf a j)%Z.
Definition same_outside (a a' : arrays) (lo n : nat) : Prop :=
  forall i, i < lo \/ lo + n <= i -> entry a' i = entry a i.

Lemma entry_swap : forall a i j k, entry (swap a i j) k =
  if Nat.eqb k j then entry a i else if Nat.eqb k i then entry a j else entry a k.
Proof.
  intros. unfold entry, swap, upd. cbn.
  destruct (Nat.eqb_spec k j), (Nat.eqb_spec k i); reflexivity.
Qed.

Lemma Xf_swap : forall a i j k, Xf (swap a i j) k =
  if Nat.eqb k j then Xf a i else if Nat.eqb k i then Xf a j else Xf a k.
Proof. intros. unfold swap, upd. cbn. destruct (Nat.eqb_spec k j), (Nat.eqb_spec k i); reflexivity. Qed.

(** Sequences of swaps inside a range. *)
Inductive swaps (lo n : nat) : arrays -> arrays -> Prop :=
| swaps_refl a : swaps lo n a a
| swaps_step a i j a' : lo <= i < lo + n -> lo <= j < lo + n -> swaps lo n (swap a i j) a' -> swaps lo n a a'.

Lemma swaps_trans : forall lo n a b c, swaps lo n a b -> swaps lo n b c -> swaps lo n a c.
Proof. intros lo n a b c H. revert c. induction H; intros c K; [exact K|]. apply (swaps_step lo n a i j); auto. Qed.

Lemma swaps_weak : forall lo n lo' n' a b, swaps lo n a b -> lo' <= lo -> lo + n <= lo' + n' -> swaps lo' n' a b.
Proof.
  intros lo n lo' n' a b H L U. induction H; [constructor|]. apply (swaps_step lo' n' a i j); [lia|lia|assumption].
Qed.

Lemma swaps_one : forall lo n a i j, lo <= i < lo + n -> lo <= j < lo + n -> swaps lo n a (swap a i j).
Proof. intros. apply (swaps_step lo n a i j); auto. constructor. Qed.

Lemma swaps_frame : forall lo n a b, swaps lo n a b -> same_outside a b lo n.
Proof.
  intros lo n a b H. induction H; intros k K; [reflexivity|]. rewrite IHswaps by exact K.
  rewrite entry_swap. destruct (Nat.eqb_spec k j), (Nat.eqb_spec k i); auto; lia.
Qed.

Lemma swaps_forall : forall (P : Z -> Prop) lo n a b, swaps lo n a b ->
  (forall i, lo <= i < lo + n -> P (Xf a i)) -> forall i, lo <= i < lo + n -> P (Xf b i).
Proof.
  intros P lo n a b H. induction H; intros K; [exact K|]. apply IHswaps. intros k Hk. rewrite Xf_swap.
  destruct (Nat.eqb k j), (Nat.eqb k i); auto.
Qed.

Lemma swaps_ex : forall (P : Z -> Prop) lo n a b, swaps lo n a b ->
  (exists i, lo <= i < lo + n /\ P (Xf a i)) -> exists i, lo <= i < lo + n /\ P (Xf b i).
Proof.
  intros P lo n a b H. induction H; intros (k & Hk & K); [eauto|]. apply IHswaps.
  destruct (Nat.eq_dec k i) as [->|Ni].
  - exists j. rewrite Xf_swap, Nat.eqb_refl. auto.
  - destruct (Nat.eq_dec k j) as [->|Nj].
    + exists i. rewrite Xf_swap. destruct (Nat.eqb_spec i j); [congruence|]. rewrite Nat.eqb_refl. auto.
    + exists k. rewrite Xf_swap. destruct (Nat.eqb_spec k j), (Nat.eqb_spec k i); try congruence. auto.
Qed.

Lemma view_split : forall a lo n i, i < n -> view a lo n = view a lo i ++ entry a (lo + i) :: view a (lo + S i) (n - S i).
Proof.
  intros. unfold view. replace n with (i + S (n - S i)) at 1 by lia. rewrite seq_app, map_app. cbn [seq map].
  do 3 f_equal. f_equal. lia.
Qed.

Lemma view_ext : forall a b lo n, (forall i, lo <= i < lo + n -> entry a i = entry b i) -> view a lo n = view b lo n.
Proof. intros. unfold view. apply map_ext_in. intros i I. apply in_seq in I. auto. Qed.

Lemma swap_perm_lt : forall a lo n i j, lo <= i -> i < j -> j < lo + n -> Permutation (view a lo n) (view (swap a i j) lo n).
Proof.
  intros a lo n i j L M U.
  assert (D : forall c, view c lo n = view c lo (i - lo) ++ entry c i :: view c (S i) (j - S i) ++ entry c j :: view c (S j) (lo + n - S j)).
  { intro c. rewrite (view_split c lo n (i - lo)) by lia. f_equal. replace (lo + (i - lo)) with i by lia. f_equal.
    replace (lo + S (i - lo)) with (S i) by lia. rewrite (view_split c (S i) (n - S (i - lo)) (j - S i)) by lia.
    replace (S i + (j - S i)) with j by lia. do 2 f_equal. f_equal; lia. }
  rewrite !D.
  assert (Ei : entry (swap a i j) i = entry a j).
  { rewrite entry_swap. destruct (Nat.eqb_spec i j); [lia|]. rewrite Nat.eqb_refl. reflexivity. }
  assert (Ej : entry (swap a i j) j = entry a i) by (rewrite entry_swap, Nat.eqb_refl; reflexivity).
  assert (Eo : forall k, k <> i -> k <> j -> entry (swap a i j) k = entry a k).
  { intros k K1 K2. rewrite entry_swap. destruct (Nat.eqb_spec k j), (Nat.eqb_spec k i); congruence. }
  rewrite Ei, Ej.
  rewrite (view_ext (swap a i j) a lo (i - lo)) by (intros; apply Eo; lia).
  rewrite (view_ext (swap a i j) a (S i) (j - S i)) by (intros; apply Eo; lia).
  rewrite (view_ext (swap a i j) a (S j) (lo + n - S j)) by (intros; apply Eo; lia).
  apply Permutation_app_head.
  set (A := view a (S i) (j - S i)). set (B := view a (S j) (lo + n - S j)).
  rewrite <- (Permutation_middle A B (entry a j)).
  rewrite <- (Permutation_middle A B (entry a i)). apply perm_swap.
Qed.

Lemma swap_perm : forall a lo n i j, lo <= i < lo + n -> lo <= j < lo + n -> Permutation (view a lo n) (view (swap a i j) lo n).
Proof.
  intros a lo n i j Hi Hj. destruct (lt_eq_lt_dec i j) as [[L| ->]|L].
  - apply swap_perm_lt; lia.
  - rewrite (view_ext (swap a j j) a); [reflexivity|]. intros k _. rewrite entry_swap.
    destruct (Nat.eqb_spec k j); subst; auto.
  - rewrite (view_ext (swap a i j) (swap a j i)); [apply swap_perm_lt; lia|]. intros k _. rewrite !entry_swap.
    destruct (Nat.eqb_spec k j), (Nat.eqb_spec k i); subst; auto. 
Qed.

Lemma swaps_perm : forall lo n a b, swaps lo n a b -> Permutation (view a lo n) (view b lo n).
Proof.
  intros lo n a b H. induction H; [reflexivity|]. etransitivity; [|exact IHswaps]. apply swap_perm; assumption.
Qed.

(** ** The partition *)

Lemma median3_in : forall a b n, 1 < n -> exists i, b <= i < b + n /\ Xf a i = median3 a b n.
Proof.
  intros a b n N. unfold median3.
  assert (n / 2 < n) by (apply Nat.div_lt; lia).
  repeat match goal with |- context[if ?c then _ else _] => destruct c end;
    first [exists b; split; [lia|reflexivity] | exists (b + n / 2); split; [lia|reflexivity]
          | exists (b + (n - 1)); split; [lia|reflexivity]].
Qed.

Lemma partition_spec : forall fuel a b n pivot i l r,
  l <= i -> i <= r -> r <= n -> r - i <= fuel ->
  (forall k, k < l -> (Xf a (b + k) < pivot)%Z) ->
  (forall k, l <= k < i -> Xf a (b + k) = pivot) ->
  (forall k, r <= k < n -> (pivot < Xf a (b + k))%Z) ->
  exists a' l' r', partition_loop fuel a b pivot i l r = Ok (a', l', r') /\ swaps b n a a'
    /\ l' <= r' <= n
    /\ (forall k, k < l' -> (Xf a' (b + k) < pivot)%Z)
    /\ (forall k, l' <= k < r' -> Xf a' (b + k) = pivot)
    /\ (forall k, r' <= k < n -> (pivot < Xf a' (b + k))%Z).
Proof.
  induction fuel as [|fuel IH]; intros a b n pivot i l r Li Ir Rn F H1 H2 H3; cbn [partition_loop].
  - destruct (Nat.ltb_spec i r); [lia|]. assert (i = r) by lia. subst i.
    exists a, l, r. split; [reflexivity|]. split; [constructor|]. repeat split; auto; lia.
  - destruct (Nat.ltb_spec i r).
    2:{ assert (i = r) by lia. subst i. exists a, l, r. split; [reflexivity|]. split; [constructor|]. repeat split; auto; lia. }
    destruct (Z.ltb_spec (Xf a (b + i)) pivot) as [C|C].
    + destruct (IH (swap a (b + i) (b + l)) b n pivot (i + 1) (l + 1) r) as (a' & l' & r' & E & S & R); try lia.
      * intros k K. rewrite Xf_swap. destruct (Nat.eqb_spec (b + k) (b + l)); [lia|].
        destruct (Nat.eqb_spec (b + k) (b + i)); [lia|]. apply H1. lia.
      * intros k K. rewrite Xf_swap. destruct (Nat.eqb_spec (b + k) (b + l)); [lia|].
        destruct (Nat.eqb_spec (b + k) (b + i)); apply H2; lia.
      * intros k K. rewrite Xf_swap. destruct (Nat.eqb_spec (b + k) (b + l)); [lia|].
        destruct (Nat.eqb_spec (b + k) (b + i)); [lia|]. apply H3; lia.
      * exists a', l', r'. split; [exact E|]. split; [|exact R]. eapply swaps_trans; [|exact S]. apply swaps_one; lia.
    + destruct (Z.ltb_spec pivot (Xf a (b + i))) as [D|D].
      * destruct (IH (swap a (b + i) (b + (r - 1))) b n pivot i l (r - 1)) as (a' & l' & r' & E & S & R); try lia.
        -- intros k K. rewrite Xf_swap. destruct (Nat.eqb_spec (b + k) (b + (r - 1))); [lia|].
           destruct (Nat.eqb_spec (b + k) (b + i)); [lia|]. apply H1. lia.
        -- intros k K. rewrite Xf_swap. destruct (Nat.eqb_spec (b + k) (b + (r - 1))); [lia|].
           destruct (Nat.eqb_spec (b + k) (b + i)); [lia|]. apply H2. lia.
        -- intros k K. rewrite Xf_swap. destruct (Nat.eqb_spec (b + k) (b + (r - 1))); [assumption|].
           destruct (Nat.eqb_spec (b + k) (b + i)); [lia|]. apply H3. lia.
        -- exists a', l', r'. split; [exact E|]. split; [|exact R]. eapply swaps_trans; [|exact S]. apply swaps_one; lia.
      * apply IH; try lia; auto.
        intros k K. destruct (Nat.eq_dec k i) as [->|]; [lia|]. apply H2. lia.
Qed.

(** ** Heapsort *)

Definition heap_at (a : arrays) (b i hend : nat) : Prop :=
  (i * 2 + 1 < hend -> (Xf a (b + (i * 2 + 1)) <= Xf a (b + i))%Z)
  /\ (i * 2 + 2 < hend -> (Xf a (b + (i * 2 + 2)) <= Xf a (b + i))%Z).

Lemma sift_spec : forall fuel a b start root hend,
  start <= root -> root < hend -> hend - root <= fuel ->
  (forall i, start <= i -> i <> root -> heap_at a b i hend) ->
  (forall p, start <= p -> root = p * 2 + 1 \/ root = p * 2 + 2 ->
     (root * 2 + 1 < hend -> (Xf a (b + (root * 2 + 1)) <= Xf a (b + p))%Z)
     /\ (root * 2 + 2 < hend -> (Xf a (b + (root * 2 + 2)) <= Xf a (b + p))%Z)) ->
  exists a', sift_down fuel a b root hend = Ok a' /\ swaps b hend a a'
    /\ (forall i, start <= i -> heap_at a' b i hend)
    /\ (forall i, i < start -> entry a' (b + i) = entry a (b + i)).
Proof.
  induction fuel as [|fuel IH]; intros a b start root hend S R F H G; [lia|]. cbn [sift_down].
  replace (root * 2 + 1 + 1) with (root * 2 + 2) by lia.
  set (m1 := if (Nat.ltb (root * 2 + 1) hend && (Xf a (b + root) <? Xf a (b + (root * 2 + 1)))%Z)%bool then root * 2 + 1 else root).
  set (m2 := if (Nat.ltb (root * 2 + 2) hend && (Xf a (b + m1) <? Xf a (b + (root * 2 + 2)))%Z)%bool then root * 2 + 2 else m1).
  assert (M1 : (m1 = root \/ (m1 = root * 2 + 1 /\ m1 < hend /\ (Xf a (b + root) < Xf a (b + m1))%Z))
    /\ (root * 2 + 1 < hend -> (Xf a (b + (root * 2 + 1)) <= Xf a (b + m1))%Z)
    /\ (Xf a (b + root) <= Xf a (b + m1))%Z).
  { unfold m1. destruct (Nat.ltb_spec (root * 2 + 1) hend); cbn [andb].
    - destruct (Z.ltb_spec (Xf a (b + root)) (Xf a (b + (root * 2 + 1)))); [split; [right; lia|split; lia]|split; [auto|split; lia]].
    - split; [auto|split; lia]. }
  assert (M2 : (m2 = m1 \/ (m2 = root * 2 + 2 /\ m2 < hend /\ (Xf a (b + m1) < Xf a (b + m2))%Z))
    /\ (root * 2 + 2 < hend -> (Xf a (b + (root * 2 + 2)) <= Xf a (b + m2))%Z)
    /\ (Xf a (b + m1) <= Xf a (b + m2))%Z).
  { unfold m2. destruct (Nat.ltb_spec (root * 2 + 2) hend); cbn [andb].
    - destruct (Z.ltb_spec (Xf a (b + m1)) (Xf a (b + (root * 2 + 2)))); [split; [right; lia|split; lia]|split; [auto|split; lia]].
    - split; [auto|split; lia]. }
  clearbody m1 m2. destruct M1 as (C1 & B1 & L1). destruct M2 as (C2 & B2 & L2).
  destruct (Nat.eqb_spec m2 root) as [->|NE].
  - exists a. split; [reflexivity|]. split; [constructor|]. split; [|auto].
    intros i Hi. destruct (Nat.eq_dec i root) as [->|N]; [|apply H; assumption].
    split; intro Q; [specialize (B1 Q); lia|specialize (B2 Q); lia].
  - assert (M : (m2 = root * 2 + 1 \/ m2 = root * 2 + 2) /\ m2 < hend /\ (Xf a (b + root) < Xf a (b + m2))%Z).
    { destruct C2 as [C2|(C2 & ? & ?)].
      - destruct C1 as [C1|(C1 & ? & ?)]; [congruence|]. rewrite C2. split; [auto|]. split; assumption.
      - split; [auto|]. split; [assumption|]. lia. }
    destruct M as (Mc & Mh & Mx).
    assert (X' : forall k, Xf (swap a (b + root) (b + m2)) (b + k) =
       if Nat.eqb k m2 then Xf a (b + root) else if Nat.eqb k root then Xf a (b + m2) else Xf a (b + k)).
    { intro k. rewrite Xf_swap. destruct (Nat.eqb_spec (b + k) (b + m2)), (Nat.eqb_spec k m2); try lia.
      destruct (Nat.eqb_spec (b + k) (b + root)), (Nat.eqb_spec k root); try lia; reflexivity. }
    destruct (IH (swap a (b + root) (b + m2)) b start m2 hend) as (a' & E & Sw & Hp & Fr); try lia.
    + intros i Hi N. unfold heap_at. rewrite !X'.
      pose proof (H i Hi) as Hh. unfold heap_at in Hh.
      destruct (Nat.eqb_spec i m2); [congruence|].
      destruct (Nat.eqb_spec i root) as [->|Nr].
      * split; intro Q.
        -- destruct (Nat.eqb_spec (root * 2 + 1) m2); [lia|]. destruct (Nat.eqb_spec (root * 2 + 1) root); [lia|].
           specialize (B1 Q). lia.
        -- destruct (Nat.eqb_spec (root * 2 + 2) m2); [lia|]. destruct (Nat.eqb_spec (root * 2 + 2) root); [lia|].
           specialize (B2 Q). lia.
      * destruct (Hh Nr) as [Ha Hb]. specialize (G i Hi). split; intro Q.
        -- destruct (Nat.eqb_spec (i * 2 + 1) m2); [lia|]. destruct (Nat.eqb_spec (i * 2 + 1) root) as [Er|]; [|auto].
           destruct (G (or_introl (eq_sym Er))) as [G1 G2]. destruct Mc as [-> | ->]; auto.
        -- destruct (Nat.eqb_spec (i * 2 + 2) m2); [lia|]. destruct (Nat.eqb_spec (i * 2 + 2) root) as [Er|]; [|auto].
           destruct (G (or_intror (eq_sym Er))) as [G1 G2]. destruct Mc as [-> | ->]; auto.
    + intros p Hp Hc. assert (p = root) by lia. subst p. rewrite !X'.
      destruct (Nat.eqb_spec root m2); [lia|]. rewrite Nat.eqb_refl.
      destruct (H m2) as [Ha Hb]; [lia|lia|].
      split; intro Q.
      * destruct (Nat.eqb_spec (m2 * 2 + 1) m2); [lia|]. destruct (Nat.eqb_spec (m2 * 2 + 1) root); [lia|]. auto.
      * destruct (Nat.eqb_spec (m2 * 2 + 2) m2); [lia|]. destruct (Nat.eqb_spec (m2 * 2 + 2) root); [lia|]. auto.
    + exists a'. split; [exact E|]. split; [|split; [exact Hp|]].
      * eapply swaps_trans; [|exact Sw]. apply swaps_one; lia.
      * intros i Hi. rewrite Fr by exact Hi. rewrite entry_swap.
        destruct (Nat.eqb_spec (b + i) (b + m2)), (Nat.eqb_spec (b + i) (b + root)); lia || reflexivity.
Qed.

Lemma heapify_spec : forall start a b n, start < n ->
  (forall i, start < i -> heap_at a b i n) ->
  exists a', heapify_loop a b start n = Ok a' /\ swaps b n a a' /\ forall i, heap_at a' b i n.
Proof.
  induction start as [|s IH]; intros a b n L H; cbn [heapify_loop].
  - destruct (sift_spec (S n) a b 0 0 n) as (a' & E & Sw & Hp & _); try lia.
    { intros i _ N. apply H. lia. }
    exists a'. rewrite E. cbn. split; [reflexivity|]. split; [exact Sw|]. intros i. apply Hp. lia.
  - destruct (sift_spec (S n) a b (S s) (S s) n) as (a' & E & Sw & Hp & _); try lia.
    { intros i I N. apply H. lia. }
    rewrite E. cbn [bind]. destruct (IH a' b n) as (a2 & E2 & Sw2 & Hp2); [lia|intros; apply Hp; lia|].
    exists a2. split; [exact E2|]. split; [eapply swaps_trans; eassumption|exact Hp2].
Qed.

Lemma heap_max : forall a b hend, (forall i, heap_at a b i hend) -> forall i, i < hend -> (Xf a (b + i) <= Xf a (b + 0))%Z.
Proof.
  intros a b hend H i. induction i as [i IH] using (well_founded_induction lt_wf). intro L.
  destruct i as [|i]; [lia|]. set (p := i / 2).
  pose proof (Nat.div_mod i 2 ltac:(lia)) as D. pose proof (Nat.mod_upper_bound i 2 ltac:(lia)) as U. fold p in D.
  assert (P : S i = p * 2 + 1 \/ S i = p * 2 + 2) by lia.
  specialize (IH p ltac:(lia) ltac:(lia)). destruct (H p) as [H1 H2].
  destruct P as [P|P]; rewrite P in *; [specialize (H1 L)|specialize (H2 L)]; lia.
Qed.

Lemma shrink_spec : forall hend a b n, hend < n ->
  (forall i, heap_at a b i (S hend)) ->
  (forall i j, i <= hend -> hend < j < n -> (Xf a (b + i) <= Xf a (b + j))%Z) ->
  (forall i j, hend < i -> i <= j -> j < n -> (Xf a (b + i) <= Xf a (b + j))%Z) ->
  exists a', shrink_loop a b hend = Ok a' /\ swaps b n a a' /\ (forall i j, i <= j -> j < n -> (Xf a' (b + i) <= Xf a' (b + j))%Z).
Proof.
  induction hend as [|e IH]; intros a b n L H Hi Hs; cbn [shrink_loop].
  - exists a. split; [reflexivity|]. split; [constructor|]. intros i j I J.
    destruct i as [|i]; [destruct j as [|j]; [lia|apply Hi; lia]|]. apply Hs; lia.
  - set (a1 := swap a b (b + S e)).
    assert (X1 : forall k, Xf a1 (b + k) = if Nat.eqb k (S e) then Xf a (b + 0) else if Nat.eqb k 0 then Xf a (b + S e) else Xf a (b + k)).
    { intro k. unfold a1. rewrite Xf_swap. replace (b + 0) with b by lia.
      destruct (Nat.eqb_spec (b + k) (b + S e)), (Nat.eqb_spec k (S e)); try lia.
      destruct (Nat.eqb_spec (b + k) b), (Nat.eqb_spec k 0); try lia; reflexivity. }
    destruct (sift_spec (S (S e)) a1 b 0 0 (S e)) as (a' & E & Sw & Hp & _); try lia.
    { intros i _ N. unfold heap_at. rewrite !X1. destruct (H i) as [H1 H2].
      split; intro Q.
      - destruct (Nat.eqb_spec (i * 2 + 1) (S e)); [lia|]. destruct (Nat.eqb_spec (i * 2 + 1) 0); [lia|].
        destruct (Nat.eqb_spec i (S e)); [lia|]. destruct (Nat.eqb_spec i 0); [lia|]. apply H1. lia.
      - destruct (Nat.eqb_spec (i * 2 + 2) (S e)); [lia|]. destruct (Nat.eqb_spec (i * 2 + 2) 0); [lia|].
        destruct (Nat.eqb_spec i (S e)); [lia|]. destruct (Nat.eqb_spec i 0); [lia|]. apply H2. lia. }
    rewrite E. cbn [bind].
    assert (Max := heap_max a b (S (S e)) H).
    assert (Out : forall k, S e <= k -> Xf a' (b + k) = Xf a1 (b + k)).
    { intros k K. pose proof (swaps_frame _ _ _ _ Sw (b + k) ltac:(lia)) as Q. apply (f_equal fst) in Q. exact Q. }
    destruct (IH a' b n) as (a2 & E2 & Sw2 & R); try lia.
    + intro i. apply Hp. lia.
    + intros i j Ii [J1 J2]. rewrite (Out j) by lia.
      assert (K : (fun x => x <= Xf a1 (b + j))%Z (Xf a' (b + i))); [|exact K].
      apply (swaps_forall (fun x => x <= Xf a1 (b + j))%Z b (S e) a1 a' Sw); [|lia].
      intros k K. replace k with (b + (k - b)) by lia. set (k' := k - b). rewrite !X1.
      destruct (Nat.eqb_spec k' (S e)); [lia|].
      destruct (Nat.eqb_spec j (S e)) as [->|].
      * destruct (Nat.eqb_spec k' 0); [apply Max; lia|]. apply Max. lia.
      * destruct (Nat.eqb_spec j 0); [lia|]. destruct (Nat.eqb_spec k' 0); apply Hi; lia.
    + intros i j I1 I2 J. rewrite (Out i), (Out j) by lia. rewrite !X1.
      destruct (Nat.eqb_spec i (S e)) as [->|], (Nat.eqb_spec j (S e)) as [->|]; try lia.
      * destruct (Nat.eqb_spec j 0); [lia|]. apply Hi; lia.
      * destruct (Nat.eqb_spec i 0), (Nat.eqb_spec j 0); try lia. apply Hs; lia.
    + exists a2. split; [exact E2|]. split; [|exact R].
      eapply swaps_trans; [|exact Sw2]. eapply swaps_trans; [apply (swaps_one b n a b (b + S e)); lia|].
      eapply swaps_weak; [exact Sw|lia|lia].
Qed.

Lemma heapsort_spec : forall a b n, 1 < n ->
  exists a', heapsort a b n = Ok a' /\ swaps b n a a' /\ sorted a' b n.
Proof.
  intros a b n N. unfold heapsort.
  pose proof (Nat.div_mod (n - 2) 2 ltac:(lia)) as D. pose proof (Nat.mod_upper_bound (n - 2) 2 ltac:(lia)) as U.
  destruct (heapify_spec ((n - 2) / 2) a b n) as (a1 & E & Sw & Hp); [lia|intros i I; split; lia|].
  rewrite E. cbn [bind].
  destruct (shrink_spec (n - 1) a1 b n) as (a2 & E2 & Sw2 & R); try lia.
  { intro i. replace (S (n - 1)) with n by lia. apply Hp. }
  exists a2. split; [exact E2|]. split; [eapply swaps_trans; eassumption|].
  intros i j I J K. replace i with (b + (i - b)) by lia. replace j with (b + (j - b)) by lia. apply R; lia.
Qed.

(** ** Introsort *)

Lemma introsort_spec : forall fuel a b n maxd, n <= fuel ->
  exists a', introsort fuel a b n maxd = Ok a' /\ swaps b n a a' /\ sorted a' b n.
Proof.
  induction fuel as [|fuel IH]; intros a b n maxd F; cbn [introsort].
  - destruct (Nat.ltb_spec 1 n); [lia|]. exists a. split; [reflexivity|]. split; [constructor|]. intros i j I J K. assert (i = j) by lia. subst. lia.
  - destruct (Nat.ltb_spec 1 n) as [N|N].
    2:{ exists a. split; [reflexivity|]. split; [constructor|]. intros i j I J K. assert (i = j) by lia. subst. lia. }
    destruct maxd as [|maxd]; [apply heapsort_spec; exact N|].
    set (pivot := median3 a b n).
    destruct (partition_spec n a b n pivot 0 0 n) as (a1 & l & r & E & Sw & LR & P1 & P2 & P3); try lia.
    rewrite E. cbn [bind].
    assert (LT : l < r).
    { destruct (median3_in a b n N) as (i & Hi & Vi). fold pivot in Vi.
      destruct (swaps_ex (fun x => x = pivot) b n a a1 Sw) as (k & Hk & Vk); [exists i; auto|].
      replace k with (b + (k - b)) in Vk by lia.
      destruct (le_lt_dec l (k - b)) as [Q|Q]; [|specialize (P1 _ Q); lia].
      destruct (le_lt_dec r (k - b)) as [Q'|Q']; [specialize (P3 (k - b) ltac:(lia)); lia|lia]. }
    destruct (IH a1 b l maxd) as (a2 & E2 & Sw2 & S2); [lia|]. rewrite E2. cbn [bind].
    destruct (IH a2 (b + r) (n - r) maxd) as (a3 & E3 & Sw3 & S3); [lia|].
    exists a3. split; [exact E3|].
    assert (O2 : forall k, l <= k -> Xf a2 (b + k) = Xf a1 (b + k)).
    { intros k K. pose proof (swaps_frame _ _ _ _ Sw2 (b + k) ltac:(lia)) as Q. apply (f_equal fst) in Q. exact Q. }
    assert (O3 : forall k, k < r -> Xf a3 (b + k) = Xf a2 (b + k)).
    { intros k K. pose proof (swaps_frame _ _ _ _ Sw3 (b + k) ltac:(lia)) as Q. apply (f_equal fst) in Q. exact Q. }
    assert (Lo : forall k, k < l -> (Xf a3 (b + k) < pivot)%Z).
    { intros k K. rewrite O3 by lia. apply (swaps_forall (fun x => x < pivot)%Z b l a1 a2 Sw2); [|lia].
      intros i I. replace i with (b + (i - b)) by lia. apply P1. lia. }
    assert (Mi : forall k, l <= k < r -> Xf a3 (b + k) = pivot).
    { intros k K. rewrite O3, O2 by lia. apply P2. lia. }
    assert (Hi : forall k, r <= k < n -> (pivot < Xf a3 (b + k))%Z).
    { intros k K. apply (swaps_forall (fun x => pivot < x)%Z (b + r) (n - r) a2 a3 Sw3); [|lia].
      intros i I. replace i with (b + (i - b)) by lia. rewrite O2 by lia. apply P3. lia. }
    split.
    + eapply swaps_trans; [exact Sw|]. eapply swaps_trans; [eapply swaps_weak; [exact Sw2|lia|lia]|].
      eapply swaps_weak; [exact Sw3|lia|lia].
    + intros i j I J K. replace i with (b + (i - b)) by lia. replace j with (b + (j - b)) by lia.
      set (i' := i - b). set (j' := j - b). assert (i' <= j' < n) by (unfold i', j'; lia).
      destruct (le_lt_dec l i') as [Q|Q].
      * destruct (le_lt_dec r i') as [Q'|Q'].
        -- apply S3; lia.
        -- rewrite (Mi i') by lia. destruct (le_lt_dec r j'); [specialize (Hi j' ltac:(lia)); lia|rewrite Mi by lia; lia].
      * destruct (le_lt_dec l j') as [Q'|Q'].
        -- specialize (Lo i' Q). destruct (le_lt_dec r j'); [specialize (Hi j' ltac:(lia)); lia|rewrite (Mi j') by lia; lia].
        -- rewrite !O3 by lia. apply S2; lia.
Qed.

Lemma sort_spec : forall maxd a n,
  exists a', sort maxd a n = Ok a' /\ sorted a' 0 n /\ Permutation (view a 0 n) (view a' 0 n) /\ same_outside a a' 0 n.
Proof.
  intros maxd a n. unfold sort. destruct (Nat.eqb_spec n 0) as [->|N].
  - exists a. split; [reflexivity|]. split; [intros i j; lia|]. split; [reflexivity|]. intros i _. reflexivity.
  - destruct (introsort_spec n a 0 n maxd (le_n n)) as (a' & E & Sw & S). exists a'. split; [exact E|]. split; [exact S|].
    split; [apply swaps_perm; exact Sw|apply swaps_frame; exact Sw].
Qed.

(** ** Bisection *)

Definition ascending_list (X : list Z) : Prop :=
  forall i j x y, i <= j -> nth_error X i = Some x -> nth_error X j = Some y -> (x <= y)%Z.

Definition insertion_point (X : list Z) (v : Z) (k : nat) : Prop :=
  k <= length X
  /\ (forall i x, i < k -> nth_error X i = Some x -> (x <= v)%Z)
  /\ (forall i x, k <= i -> nth_error X i = Some x -> (v <= x)%Z).

Lemma bisect_ok : forall fuel X v lo hi, lo <= hi < length X -> hi - lo < fuel ->
  ascending_list X ->
  (forall i x, i < lo -> nth_error X i = Some x -> (x <= v)%Z) ->
  (forall i x, hi < i -> nth_error X i = Some x -> (v <= x)%Z) ->
  exists k, bisect_ fuel X v lo hi = Ok k /\ insertion_point X v k.
Proof.
  induction fuel as [|fuel IH]; intros X v lo hi B F A L H; [lia|]. cbn [bisect_]. unfold rd.
  destruct (nth_error X lo) as [xl|] eqn:El; [|apply nth_error_None in El; lia]. cbn [bind].
  destruct (Z.leb_spec v xl) as [C|C].
  { exists lo. split; [reflexivity|]. split; [lia|]. split; [exact L|]. intros i x I N. pose proof (A lo i xl x I El N). lia. }
  destruct (nth_error X hi) as [xu|] eqn:Eu; [|apply nth_error_None in Eu; lia]. cbn [bind].
  destruct (Z.leb_spec xu v) as [D|D].
  { exists (hi + 1). split; [reflexivity|]. split; [lia|]. split.
    - intros i x I N. pose proof (A i hi x xu ltac:(lia) N Eu). lia.
    - intros i x I N. apply (H i x); [lia|exact N]. }
  destruct (Nat.eqb_spec (lo + 1) hi) as [Q|Q]; cbn [andb].
  { destruct (Z.ltb_spec xl v); [|lia]. destruct (Z.ltb_spec v xu); [|lia]. cbn [andb].
    exists hi. split; [reflexivity|]. split; [lia|]. split.
    - intros i x I N. pose proof (A i lo x xl ltac:(lia) N El). lia.
    - intros i x I N. pose proof (A hi i xu x I Eu N). lia. }
  assert (lo <> hi) by (intros ->; rewrite El in Eu; inversion Eu; lia).
  pose proof (Nat.div_mod (lo + hi) 2 ltac:(lia)) as DM. pose proof (Nat.mod_upper_bound (lo + hi) 2 ltac:(lia)) as U.
  set (p := (lo + hi) / 2) in *.
  destruct (nth_error X p) as [xp|] eqn:Ep; [|apply nth_error_None in Ep; lia]. cbn [bind].
  destruct (Z.ltb_spec xp v).
  - apply IH; [lia|lia|exact A| |exact H]. intros i x I N. pose proof (A i p x xp ltac:(lia) N Ep). lia.
  - apply IH; [lia|lia|exact A|exact L|]. intros i x I N. pose proof (A p i xp x ltac:(lia) Ep N). lia.
Qed.

Lemma bisect_spec : forall X v, X <> [] -> ascending_list X -> exists k, bisect X v = Ok k /\ insertion_point X v k.
Proof.
  intros X v N A. unfold bisect. destruct X as [|x X]; [congruence|]. cbn [length].
  apply bisect_ok; [cbn; lia|cbn; lia|exact A|intros; lia|].
  intros i y I Q. assert (i < length (x :: X)) by (apply nth_error_Some; congruence). cbn in *. lia.
Qed.

(** Termination and in-range reads do not need the array to be sorted. *)
Lemma bisect_total : forall fuel X v lo hi, lo <= hi < length X -> hi - lo < fuel ->
  exists k, bisect_ fuel X v lo hi = Ok k /\ k <= length X.
Proof.
  induction fuel as [|fuel IH]; intros X v lo hi B F; [lia|]. cbn [bisect_]. unfold rd.
  destruct (nth_error X lo) as [xl|] eqn:El; [|apply nth_error_None in El; lia]. cbn [bind].
  destruct (Z.leb_spec v xl) as [C|C]; [exists lo; split; [reflexivity|lia]|].
  destruct (nth_error X hi) as [xu|] eqn:Eu; [|apply nth_error_None in Eu; lia]. cbn [bind].
  destruct (Z.leb_spec xu v) as [D|D]; [exists (hi + 1); split; [reflexivity|lia]|].
  destruct (Nat.eqb_spec (lo + 1) hi) as [Q|Q]; cbn [andb].
  { destruct (Z.ltb_spec xl v); [|lia]. destruct (Z.ltb_spec v xu); [|lia]. exists hi. split; [reflexivity|lia]. }
  assert (lo <> hi) by (intros ->; rewrite El in Eu; inversion Eu; lia).
  pose proof (Nat.div_mod (lo + hi) 2 ltac:(lia)) as DM. pose proof (Nat.mod_upper_bound (lo + hi) 2 ltac:(lia)) as U.
  set (p := (lo + hi) / 2) in *.
  destruct (nth_error X p) as [xp|] eqn:Ep; [|apply nth_error_None in Ep; lia]. cbn [bind].
  destruct (Z.ltb_spec xp v); apply IH; lia.
Qed.

(** Insertion at an insertion point keeps the array ascending. *)
Lemma insertion_keeps : forall X v k, ascending_list X -> insertion_point X v k ->
  ascending_list (firstn k X ++ v :: skipn k X).
Proof.
  intros X v k A (K & Lo & Hi).
  assert (N : forall i, nth_error (firstn k X ++ v :: skipn k X) i =
     if Nat.ltb i k then nth_error X i else if Nat.eqb i k then Some v else nth_error X (i - 1)).
  { intro i. assert (FL : length (firstn k X) = k) by (rewrite firstn_length; lia).
    destruct (Nat.ltb_spec i k).
    - rewrite nth_error_app1 by lia. rewrite <- (firstn_skipn k X) at 2. rewrite nth_error_app1 by lia. reflexivity.
    - rewrite nth_error_app2 by lia. rewrite FL. destruct (Nat.eqb_spec i k) as [->|].
      + rewrite Nat.sub_diag. reflexivity.
      + destruct (i - k) as [|m] eqn:M; [lia|]. cbn. rewrite <- (firstn_skipn k X) at 2.
        rewrite nth_error_app2 by lia. rewrite FL. f_equal. lia. }
  intros i j x y I Ex Ey. rewrite N in Ex, Ey.
  destruct (Nat.ltb_spec i k), (Nat.ltb_spec j k); try lia.
  - exact (A i j x y I Ex Ey).
  - destruct (Nat.eqb_spec j k).
    + inversion Ey; subst. exact (Lo i x ltac:(lia) Ex).
    + exact (A i (j - 1) x y ltac:(lia) Ex Ey).
  - destruct (Nat.eqb_spec i k), (Nat.eqb_spec j k); try lia.
    + inversion Ex; inversion Ey; subst. lia.
    + inversion Ex; subst. exact (Hi (j - 1) y ltac:(lia) Ey).
    + exact (A (i - 1) (j - 1) x y ltac:(lia) Ex Ey).
Qed.
