(** Properties C48-C52: normalisation, sorting, bisection, heap, roulette wheel. *)
Require Import QArith Qabs Lqa ZArith Bool List Lia Permutation Ascii.
Require Import Verif.Base Verif.NumBase Verif.SortModel Verif.SortProofs Verif.UtilModel Verif.UtilProofs.
Import ListNotations.
Open Scope Q_scope.

(** C48.  Raises exactly for a negative entry (unless allowed) or when all
    entries are zero (unless the identity is requested). *)
Theorem C48_normalized_raises : forall l ident neg,
  (exists e, normalized l ident neg 0 = Err e) <->
  (neg = false /\ exists x, In x l /\ x < 0) \/ (ident = false /\ forall x, In x l -> x == 0).
Proof. exact normalized_raises. Qed.
(** *** C62: linspace *)
Theorem C62_linspace_partial : forall start stop num, num <> 1%nat ->
  length (linspace start stop num) = num
  /\ (forall i, (i < num)%nat -> exists y, nth_error (linspace start stop num) i = Some y
       /\ y == start + Qn i * ((stop - start) / (Qn num - 1)))
  /\ ((2 <= num)%nat -> exists y, nth_error (linspace start stop num) (num - 1) = Some y /\ y == stop).
Proof.
  intros start stop num N. destruct (linspace_spec start stop num N) as [A B]. split; [exact A|]. split; [exact B|].
  intro H. apply (linspace_ends start stop num H).
Qed.
(** For one sample the documentation promises the centroid of start and stop;
    the code returns half of their distance. *)
Theorem C62_single_sample_refuted : exists start stop y, linspace start stop 1 = [y] /\ ~ y == (start + stop) / 2 /\ ~ (start <= y <= stop).
Proof. exists 4, 6, ((6 - 4) / 2). split; [reflexivity|]. split; [vm_compute; discriminate|]. intros [H _]. vm_compute in H. apply H. reflexivity. Qed.
Example C62_example : linspace 0 1 3 = [0; 0 + (1 - 0) / (Qn 3 - 1); 0 + (1 - 0) / (Qn 3 - 1) + (1 - 0) / (Qn 3 - 1)].
Proof. reflexivity. Qed.

(** *** C63: integer sets from bounds *)
Theorem C63_list2intset : forall lo hi, exists l, list2intset [lo; hi] = Ok l /\ forall k, In k l <-> (lo <= k <= hi)%Z.
Proof. exact list2intset_spec. Qed.

Print Assumptions C48_normalized_raises.
(** Otherwise every entry is divided by the sum of the absolute values. *)
Theorem C48_normalized : forall l ident neg r, normalized l ident neg 0 = Ok r -> ~ (forall x, In x l -> x == 0) ->
  Qsum (map Qabs r) == 1 /\ Forall2 (fun w y => y * Qsum (map Qabs l) == w) l r.
Proof. exact normalized_exact. Qed.
Print Assumptions C48_normalized.
(** In the usual case of non-negative weights the result itself sums to 1. *)
Theorem C48_normalized_sum : forall l ident neg r, Forall (fun x => 0 <= x) l -> 0 < Qsum l ->
  normalized l ident neg 0 = Ok r -> Qsum r == 1 /\ Forall2 (fun w y => y * Qsum l == w) l r.
Proof.
  intros l ident neg r P S E.
  assert (A : forall m, Forall (fun x => 0 <= x) m -> Qsum (map Qabs m) == Qsum m).
  { induction 1; cbn [map Qsum]; [reflexivity|]. rewrite IHForall, Qabs_pos by assumption. reflexivity. }
  destruct (normalized_exact l ident neg r E) as [S1 F].
  { intro Z. rewrite Forall_forall in P. destruct (Qsum_pos_ex l S) as (x & I & X). specialize (Z x I). lra. }
  assert (F' : Forall2 (fun w y => y * Qsum l == w) l r).
  { pose proof (A l P) as AP. set (s := Qsum (map Qabs l)) in *. set (s' := Qsum l) in *. clearbody s s'.
    clear - F AP. induction F; constructor; [|assumption]. rewrite <- AP. assumption. }
  split; [|exact F'].
  assert (Pr : Forall (fun x => 0 <= x) r).
  { clear S1 E F. set (s := Qsum l) in *. clearbody s. induction F' as [|w y l' r' H F IH]; constructor.
    - inversion P; subst. destruct (Qlt_le_dec y 0) as [N|N]; [|exact N]. exfalso.
      assert (0 < (- y) * s) by (apply Qmult_lt_0_compat; lra). assert ((- y) * s == - (y * s)) by ring. lra.
    - inversion P; subst. apply IH. assumption. }
  rewrite <- (A r Pr). exact S1.
Qed.
Print Assumptions C48_normalized_sum.
(** With zero replacement: zeros become the fraction [zeros] of the smallest
    non-zero magnitude, then everything is scaled by one positive constant. *)
Theorem C48_normalized_zeros : forall l ident neg zeros r, 0 < zeros -> normalized l ident neg zeros = Ok r ->
  (exists x, In x l /\ ~ x == 0) -> (exists x, In x l /\ x == 0) ->
  exists m c, (In m (map Qabs l) /\ 0 < m /\ forall x, In x (map Qabs l) -> 0 < x -> m <= x)
    /\ 0 < c /\ Qsum (map Qabs r) == 1
    /\ Forall2 (fun w y => y == c * (if Qeq_bool w 0 then m * zeros else w)) l r.
Proof. exact normalized_fill. Qed.
Print Assumptions C48_normalized_zeros.
(** Numpy integer arrays: the result is truncated to integers and sums to 0. *)
Theorem C48_int_array_refuted : exists l r, normalized_int_array l = Ok r
  /\ Forall (fun x => (0 < x)%Z) l /\ Forall (fun x => x = 0%Z) r.
Proof.
  exists [1; 3]%Z, [0; 0]%Z. split; [vm_compute; reflexivity|]. split; repeat constructor.
Qed.
Print Assumptions C48_int_array_refuted.
Example C48_ex : normalized [1; 3; 0] false false 0 = Ok [1 # 4; 3 # 4; 0 # 4].
Proof. vm_compute. reflexivity. Qed.
Example C48_ex_zeros : exists r, normalized [1; 3; 0] false false (1 # 2) = Ok r
  /\ Forall2 Qeq r [2 # 9; 6 # 9; 1 # 9].
Proof. eexists. split; [vm_compute; reflexivity|]. repeat constructor. Qed.

(** C49, for every depth bound, every array content and every [n]. *)
Theorem C49_sort : forall maxd a n,
  exists a', sort maxd a n = Ok a'
    /\ (forall i j, (i <= j < n)%nat -> (Xf a' i <= Xf a' j)%Z)
    /\ Permutation (map (fun i => (Xf a i, samples a i)) (seq 0 n)) (map (fun i => (Xf a' i, samples a' i)) (seq 0 n))
    /\ (forall i, (n <= i)%nat -> Xf a' i = Xf a i /\ samples a' i = samples a i).
Proof.
  intros maxd a n. destruct (sort_spec maxd a n) as (a' & E & S & P & F). exists a'. split; [exact E|]. split; [|split; [exact P|]].
  - intros i j H. apply S; lia.
  - intros i H. specialize (F i (or_intror H)). inversion F. auto.
Qed.
Print Assumptions C49_sort.
Example C49_ex :
  match sort 1 (Arr (fun i => nth i [5; 2; 9; 2; 7; 1; 0]%Z 0%Z) (fun i => i)) 6 with
  | Ok a => map (fun i => (Xf a i, samples a i)) (seq 0 7) = [(1%Z, 5%nat); (2%Z, 3%nat); (2%Z, 1%nat); (5%Z, 0%nat); (7%Z, 4%nat); (9%Z, 2%nat); (0%Z, 6%nat)]
            \/ map (fun i => (Xf a i, samples a i)) (seq 0 7) = [(1%Z, 5%nat); (2%Z, 1%nat); (2%Z, 3%nat); (5%Z, 0%nat); (7%Z, 4%nat); (9%Z, 2%nat); (0%Z, 6%nat)]
  | Err _ => False
  end.
Proof. vm_compute. tauto. Qed.

(** C50: insertion keeps the order; the result separates smaller from larger. *)
Theorem C50_bisect : forall X v, X <> [] ->
  (forall i j x y, (i <= j)%nat -> nth_error X i = Some x -> nth_error X j = Some y -> (x <= y)%Z) ->
  exists k, bisect X v = Ok k /\ (k <= length X)%nat
    /\ (forall i x, (i < k)%nat -> nth_error X i = Some x -> (x <= v)%Z)
    /\ (forall i x, (k <= i)%nat -> nth_error X i = Some x -> (v <= x)%Z)
    /\ (forall i j x y, (i <= j)%nat -> nth_error (firstn k X ++ v :: skipn k X) i = Some x ->
          nth_error (firstn k X ++ v :: skipn k X) j = Some y -> (x <= y)%Z).
Proof.
  intros X v N A. destruct (bisect_spec X v N A) as (k & E & K). exists k. split; [exact E|]. destruct K as (K1 & K2 & K3).
  split; [exact K1|]. split; [exact K2|]. split; [exact K3|]. apply (insertion_keeps X v k A). split; auto.
Qed.
Print Assumptions C50_bisect.
(** Even on an unsorted array the search ends and reads only inside it. *)
Theorem C50_bisect_safe : forall X v, X <> [] -> exists k, bisect X v = Ok k /\ (k <= length X)%nat.
Proof. intros X v N. unfold bisect. destruct X; [congruence|]. apply bisect_total; cbn; lia. Qed.
Print Assumptions C50_bisect_safe.
(** On an empty array the C code reads outside of it. *)
Theorem C50_bisect_empty_refuted : forall v, bisect [] v = Err IndexError.
Proof. reflexivity. Qed.
Print Assumptions C50_bisect_empty_refuted.
Example C50_ex : bisect [1; 3; 3; 8]%Z 5 = Ok 3%nat /\ bisect [1; 3; 3; 8]%Z 3 = Ok 2%nat /\ bisect [1; 3]%Z 9 = Ok 2%nat.
Proof. vm_compute. auto. Qed.

(** C51.  For every history of pushes and pops on a heap initialised with any
    data, and every implementation of heapq that meets its documentation: pops
    deliver the smallest key, oldest first; what remains in the heap is what the
    queue specification holds; IndexError is raised exactly on an empty heap. *)
Theorem C51_heap : forall item key heappush heappop heapify inv,
  heapq_ok item heappush heappop heapify inv ->
  forall data ops,
  match heap_run item key 1 heappush heappop (heap_init item key 1 heapify data) ops with
  | Ok (out, h') => exists q', fifo_run item key data ops out q' /\ Permutation (map snd (hdata _ h')) q'
  | Err e => e = IndexError /\ exists ops1 ops2 out, ops = ops1 ++ Pop _ :: ops2 /\ fifo_run item key data ops1 out []
  end.
Proof. exact heap_fifo. Qed.
Print Assumptions C51_heap.
(** [del heap[i]] destroys the order: the next pop may return a larger key.
    (All that is used of heappop is that it returns [heap[0]].) *)
Theorem C51_delitem_refuted : forall heappop,
  (forall e d, exists d', heappop (e :: d) = Some (e, d')) ->
  exists d h' x h'',
    (* [d] is a valid binary heap *)
    (forall i e p, nth_error d (S i) = Some e -> nth_error d (i / 2) = Some p -> ele Z p e)
    /\ heap_del Z (Heap _ d 3) 0 = Ok h' /\ heap_pop Z heappop h' = Ok (x, h'')
    /\ exists y, In y (map snd (hdata _ h')) /\ (y < x)%Z.
Proof.
  intros hp H. pose (d := [((1, 0), 1); ((5, 1), 5); ((2, 2), 2)]%Z : list (hentry Z)).
  destruct (H ((5, 1), 5)%Z [((2, 2), 2)%Z]) as (d' & E).
  exists d, (Heap _ [((5, 1), 5); ((2, 2), 2)]%Z 3%Z), 5%Z, (Heap _ d' 3%Z). split; [|split; [reflexivity|split]].
  - intros i e p He Hp. destruct i as [|[|i]]; cbn in He, Hp.
    + inversion He; inversion Hp. left. cbn. lia.
    + inversion He; inversion Hp. left. cbn. lia.
    + exfalso. destruct i; discriminate.
  - unfold heap_pop. cbn [hdata]. unfold hentry in *. rewrite E. reflexivity.
  - exists 2%Z. split; [right; left; reflexivity|]. lia.
Qed.
Print Assumptions C51_delitem_refuted.

(** A sorted list is an implementation of heapq in the sense of C51. *)
Section SortedHeapq.
  Variable item : Type.
  Definition eleb (a b : hentry item) : bool :=
    ((fst (fst a) <? fst (fst b)) || ((fst (fst a) =? fst (fst b)) && (snd (fst a) <=? snd (fst b))))%Z.
  Fixpoint ins (d : list (hentry item)) (x : hentry item) : list (hentry item) :=
    match d with [] => [x] | y :: d' => if eleb x y then x :: d else y :: ins d' x end.
  Definition srt (d : list (hentry item)) := fold_left ins d [].
  Definition pop (d : list (hentry item)) := match d with [] => None | e :: d' => Some (e, d') end.
  Definition sinv (d : list (hentry item)) := ForallOrdPairs (ele item) d.

  Lemma ins_perm : forall d x, Permutation (x :: d) (ins d x).
  Proof.
    induction d as [|y d IH]; intro x; cbn; [reflexivity|]. destruct (eleb x y); [reflexivity|].
    rewrite perm_swap. constructor. apply IH.
  Qed.
  Lemma ins_inv : forall d x, sinv d -> sinv (ins d x).
  Proof.
    intros d x H. induction H as [|y d F H IH]; cbn; [constructor; constructor|].
    destruct (eleb x y) eqn:E.
    - constructor; [|constructor; assumption]. unfold eleb in E.
      assert (L : ele item x y).
      { unfold ele. apply orb_prop in E. destruct E as [E|E]; [left; lia|]. apply andb_prop in E. right; lia. }
      constructor; [exact L|]. rewrite Forall_forall in *. intros z Iz. specialize (F z Iz). unfold ele in *. lia.
    - constructor; [|exact IH]. apply Forall_forall. intros z Iz. apply (Permutation_in _ (Permutation_sym (ins_perm d x))) in Iz.
      destruct Iz as [<-|Iz]; [|rewrite Forall_forall in F; apply F, Iz].
      unfold eleb in E. apply orb_false_iff in E. destruct E as [E1 E2]. apply andb_false_iff in E2. unfold ele. lia.
  Qed.
  Lemma srt_ok : forall d acc, sinv acc -> sinv (fold_left ins d acc) /\ Permutation (d ++ acc) (fold_left ins d acc).
  Proof.
    induction d as [|x d IH]; intros acc H; cbn; [auto|]. destruct (IH (ins acc x) (ins_inv acc x H)) as [A B]. split; [exact A|].
    rewrite <- B. rewrite <- (ins_perm acc x). rewrite Permutation_middle. reflexivity.
  Qed.
  Lemma sorted_heapq : heapq_ok item ins pop srt sinv.
  Proof.
    constructor.
    - constructor.
    - intros d x H. split; [apply ins_inv, H|apply ins_perm].
    - intro d. destruct (srt_ok d [] (FOP_nil _)) as [A B]. rewrite app_nil_r in B. auto.
    - reflexivity.
    - intros [|e d] H N; [congruence|]. exists e, d. split; [reflexivity|]. split; [reflexivity|]. inversion H; subst.
      split; [assumption|]. apply Forall_forall. assumption.
  Qed.
End SortedHeapq.
Example C51_ex : exists h, heap_run (Z * nat) fst 1 (ins _) (pop _) (heap_init _ fst 1 (srt _) [(3%Z, 1%nat); (1%Z, 2%nat)])
   [Push _ (1%Z, 3%nat); Pop _; Pop _; Pop _] = Ok ([(1%Z, 2%nat); (1%Z, 3%nat); (3%Z, 1%nat)], h).
Proof. eexists. vm_compute. reflexivity. Qed.

(** C52. *)
Theorem C52_roulette : forall ws x, Forall (fun w => 0 <= w) ws -> 0 < x -> x <= Qsum ws ->
  exists i, roulette_index ws x = Ok (Some i)
   /\ Qsum (firstn i ws) < x /\ x <= Qsum (firstn (S i) ws)
   /\ (exists w, nth_error ws i = Some w /\ 0 < w)
   /\ (forall j, (j < length ws)%nat -> Qsum (firstn j ws) < x -> x <= Qsum (firstn (S j) ws) -> j = i).
Proof. exact roulette_spec. Qed.
Print Assumptions C52_roulette.
Theorem C52_roulette_range : forall ws x, roulette_index ws x = Err IndexError <-> ws = [] \/ x < 0 \/ Qsum ws < x.
Proof. exact roulette_range. Qed.
Print Assumptions C52_roulette_range.
(** For the number 0 an element of weight 0 is selected. *)
Theorem C52_roulette_zero_refuted : exists ws x i, Forall (fun w => 0 <= w) ws /\ 0 <= x /\ x <= Qsum ws
  /\ roulette_index ws x = Ok (Some i) /\ nth_error ws i = Some 0.
Proof.
  exists [0; 1], 0, 0%nat. split; [repeat constructor; lra|]. split; [lra|]. split; [cbn; lra|]. split; [vm_compute; reflexivity|reflexivity].
Qed.
Print Assumptions C52_roulette_zero_refuted.
Example C52_ex : roulette_index [1 # 2; 0; 1 # 2] (3 # 4) = Ok (Some 2%nat) /\ roulette_index [1 # 2; 0; 1 # 2] (1 # 2) = Ok (Some 0%nat)
  /\ roulette_get ["a"%char; "b"%char]%list [1 # 3; 2 # 3] (2 # 3) = Ok "b"%char.
Proof. vm_compute. auto. Qed.
