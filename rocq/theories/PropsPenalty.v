(** * Property theorems: copt/penalty.py (C09-C13).  Statements only. *)
From Coq Require Import ZArith QArith Reals Lra List Lia.
From Verif Require Import Num Vec Spec SpecSparse RVec ModelPenalty PenaltyFacts PenaltyFacts2 PenaltyFacts3.
Import ListNotations.
Open Scope R_scope.

(** C09: [@l1norm_call RN alpha] is the object's own __call__ *)
Theorem C09_l1norm_prox : forall (alpha step : R) (x : list R),
  0 <= alpha * step -> is_prox (@l1norm_call RN alpha) step x (@l1norm_prox RN alpha x step).
Proof. exact l1norm_prox_call. Qed.
Print Assumptions C09_l1norm_prox.
Theorem C09_l1norm_call : forall (alpha : R) (x : list R), @l1norm_call RN alpha x = alpha * l1 x.
Proof. exact l1norm_call_R. Qed.
Print Assumptions C09_l1norm_call.
Example C09_nonvacuous : 0 <= 1 * (1/2) /\
  l1norm_prox (K := QN) 1%Q [(2#1); (-1#4); (-3#1)]%Q (1#2)%Q = [(3#2); 0; (-5#2)]%Q.
Proof. split; [lra|]. vm_compute; reflexivity. Qed.

(** C10, constructor: whatever the integers are, accepted groups are contiguous and increasing
    (hence pairwise disjoint as sets of integers). *)
Theorem C10_accepted_groups : forall groups : list (list Z), group_init groups = Ok groups ->
  (forall g, In g groups -> forall k, (S k < length g)%nat -> nth (S k) g 0%Z = (nth k g 0 + 1)%Z) /\
  (forall i j g h, (i < j)%nat -> nth_error groups i = Some g -> nth_error groups j = Some h ->
      forall x y, In x g -> In y h -> (x < y)%Z).
Proof. exact accepted_groups. Qed.
Print Assumptions C10_accepted_groups.
(** C10, prox.  Full property (false): for every accepted group list the result minimises
    step*penalty + 1/2||.-x||^2.  Proved when all groups are non-empty with indices in [0,n);
    refuted by the accepted list [[-1,0],[1]], where Python's negative index wraps around. *)
Theorem C10_group_prox_partial : forall (alpha step : R) (groups : list (list Z)) (x : list R),
  group_init groups = Ok groups -> groups_within (length x) groups -> 0 <= alpha * step ->
  exists out pen, @group_prox RN alpha groups x step = Ok out /\
    (forall y : list R, length y = length x -> @group_call RN alpha groups y = Ok (pen y)) /\
    is_prox pen step x out /\
    (forall k, (forall g, In g groups -> ~ In (Z.of_nat k) g) -> nth k out 0 = nth k x 0).
Proof. exact group_prox_accepted. Qed.
Print Assumptions C10_group_prox_partial.
Theorem C10_group_prox_refuted :
  exists (groups : list (list Z)) (x out : list R) (pen : list R -> R),
    group_init groups = Ok groups /\
    (forall y : list R, length y = length x -> @group_call RN 1 groups y = Ok (pen y)) /\
    @group_prox RN 1 groups x 1 = Ok out /\ ~ is_prox pen 1 x out.
Proof. exact group_prox_negative. Qed.
Print Assumptions C10_group_prox_refuted.
Example C10_nonvacuous : group_init [[0;1];[3]]%Z = Ok [[0;1];[3]]%Z /\ groups_within 5 [[0;1];[3]]%Z.
Proof. split; [reflexivity|]. repeat constructor; try discriminate. Qed.

(** C11, block structure: consecutive blocks partitioning 0..n-1, one block per group marked
    +1, one singleton block marked -1 per uncovered feature, and no other blocks. *)
Theorem C11_group_blocks : forall (n : nat) (groups : list (list Z)),
  group_init groups = Ok groups -> groups_within n groups ->
  exists data ptr, group_blocks groups n = Ok (data, ptr) /\
    length data = n /\ partitions ptr n /\
    (length ptr + length (concat groups) = S (length groups + n))%nat /\
    (forall g, In g groups -> exists h, (S h < length ptr)%nat /\ blk ptr h = map Z.to_nat g /\
        (forall j, In j (blk ptr h) -> nth j data 0%Z = 1%Z)) /\
    (forall j, (j < n)%nat -> (forall g, In g groups -> ~ In (Z.of_nat j) g) ->
        exists h, (S h < length ptr)%nat /\ blk ptr h = [j] /\ nth j data 0%Z = (-1)%Z).
Proof. exact group_blocks_spec. Qed.
Print Assumptions C11_group_blocks.
(** C11, sparse prox: for any set of visited blocks and any weights d >= 0 the update is the exact
    proximal operator of the d-weighted penalty of the visited groups, and touches nothing else. *)
Theorem C11_group_sparse_prox : forall (alpha step : R) groups data ptr (x : list R) i indices indptr (d : list R),
  group_init groups = Ok groups -> groups_within (length x) groups ->
  group_blocks groups (length x) = Ok (data, ptr) ->
  row_ok indices indptr i -> NoDup (csr_row indices indptr i) ->
  Forall (fun h => (S h < length ptr)%nat /\ (h < length d)%nat) (csr_row indices indptr i) ->
  0 <= alpha -> 0 <= step -> Forall (fun t => 0 <= t) d ->
  exists x', @group_sparse_prox RN alpha data ptr x i indices indptr d step = Ok x' /\ length x' = length x /\
    (forall j, (forall h, In h (csr_row indices indptr i) -> ~ In j (blk ptr h)) -> nth j x' 0 = nth j x 0) /\
    is_prox (fun y => Rsum (map (fun h => group_block_pen alpha groups ptr d h y) (csr_row indices indptr i))) step x x'.
Proof. exact group_sparse_accepted. Qed.
Print Assumptions C11_group_sparse_prox.
(** C11, visiting all blocks (in any order) with d = 1 gives exactly GroupL1.prox. *)
Theorem C11_group_sparse_all : forall (alpha step : R) groups data ptr (x : list R) i indices indptr,
  group_init groups = Ok groups -> groups_within (length x) groups ->
  group_blocks groups (length x) = Ok (data, ptr) ->
  row_ok indices indptr i -> NoDup (csr_row indices indptr i) ->
  (forall h, In h (csr_row indices indptr i) <-> (S h < length ptr)%nat) ->
  0 <= alpha * step ->
  @group_sparse_prox RN alpha data ptr x i indices indptr (repeat 1 (length ptr)) step = @group_prox RN alpha groups x step.
Proof. exact group_sparse_dense. Qed.
Print Assumptions C11_group_sparse_all.
Example C11_nonvacuous :
  group_init [[1;2]]%Z = Ok [[1;2]]%Z /\ groups_within 4 [[1;2]]%Z /\
  group_blocks [[1;2]]%Z 4 = Ok ([-1;1;1;-1]%Z, [0;1;3;4]%nat) /\
  row_ok [2;0;1]%nat [0;3]%nat 0 /\ NoDup (csr_row [2;0;1]%nat [0;3]%nat 0) /\
  (forall h, In h (csr_row [2;0;1]%nat [0;3]%nat 0) <-> (S h < length [0;1;3;4])%nat) /\
  group_sparse_prox (K := QN) 1%Q [-1;1;1;-1]%Z [0;1;3;4]%nat [(7#1); (3#1); (4#1); (7#1)]%Q 0 [2;0;1]%nat [0;3]%nat [1;1;1]%Q 1%Q
   = Ok [(7#1); (12#5); (16#5); (7#1)]%Q.
Proof.
  split; [reflexivity|]. split; [repeat constructor; discriminate|]. split; [reflexivity|].
  split; [unfold row_ok; simpl; lia|]. split; [unfold csr_row; simpl; repeat constructor; simpl; intuition discriminate|].
  split; [intros h; unfold csr_row; simpl; lia|]. vm_compute; reflexivity.
Qed.

(** C12, in every arithmetic: the sparse prox soft-thresholds exactly the visited coordinates. *)
Theorem C12_l1_sparse_prox : forall (K : Num) (alpha : K) (x : vec K) i indices indptr (d : vec K) (step : K),
  (S i < length indptr)%nat -> (nth (S i) indptr 0 <= length indices)%nat ->
  NoDup (csr_row indices indptr i) ->
  Forall (fun j => (j < length x)%nat /\ (j < length d)%nat) (csr_row indices indptr i) ->
  exists x', l1norm_sparse_prox alpha x i indices indptr d step = Ok x' /\ length x' = length x /\
    (forall j, In j (csr_row indices indptr i) ->
       nth j x' n0 = soft_thr (nmul K (nmul K alpha (nth j d n0)) step) (nth j x n0)) /\
    (forall j, ~ In j (csr_row indices indptr i) -> nth j x' n0 = nth j x n0).
Proof. exact l1norm_sparse_correct. Qed.
Print Assumptions C12_l1_sparse_prox.
(** ... and over the reals it is the proximal operator of the d-weighted l1 norm of the visited coordinates. *)
Theorem C12_l1_sparse_is_prox : forall (alpha step : R) (x : list R) i indices indptr (d : list R),
  (S i < length indptr)%nat -> (nth (S i) indptr 0 <= length indices)%nat ->
  NoDup (csr_row indices indptr i) ->
  Forall (fun j => (j < length x)%nat /\ (j < length d)%nat) (csr_row indices indptr i) ->
  (forall j, 0 <= alpha * nth j d 0 * step) ->
  exists x', @l1norm_sparse_prox RN alpha x i indices indptr d step = Ok x' /\
    is_prox (fun y => Rsum (map (fun j => alpha * nth j d 0 * Rabs (nth j y 0)) (csr_row indices indptr i))) step x x'.
Proof. exact (fun alpha step x i indices indptr d => l1norm_sparse_prox_correct alpha step x i indices indptr d). Qed.
Print Assumptions C12_l1_sparse_is_prox.
Example C12_nonvacuous :
  NoDup (csr_row [2;0]%nat [0;2]%nat 0) /\
  l1norm_sparse_prox (K := QN) 1%Q [(3#1); (3#1); (-3#1)]%Q 0 [2;0]%nat [0;2]%nat [(1#1); (1#1); (2#1)]%Q 1%Q
    = Ok [(2#1); (3#1); (-1#1)]%Q.
Proof. split; [unfold csr_row; simpl; repeat constructor; simpl; intuition discriminate|vm_compute; reflexivity]. Qed.

(** C13: [is_pair ptr j] says that {j, j+1} is a block; singletons are marked -1, pairs +1. *)
Theorem C13_fused_split : forall n, (1 <= n)%nat ->
  exists data1 ptr1 data2 ptr2,
    fused_blocks_1 n = Ok (data1, ptr1) /\ fused_blocks_2 n = Ok (data2, ptr2) /\
    length data1 = n /\ length data2 = n /\ length ptr1 = S ((n + 1) / 2) /\ length ptr2 = S (n / 2 + 1) /\
    partitions ptr1 n /\ partitions ptr2 n /\
    (forall h, (S h < length ptr1)%nat -> exists j,
     (blk ptr1 h = [j] /\ nth j data1 0%Z = (-1)%Z) \/ (blk ptr1 h = [j; S j] /\ nth j data1 0%Z = 1%Z)) /\
    (forall h, (S h < length ptr2)%nat -> exists j,
     (blk ptr2 h = [j] /\ nth j data2 0%Z = (-1)%Z) \/ (blk ptr2 h = [j; S j] /\ nth j data2 0%Z = 1%Z)) /\
    (forall j, (S j < n)%nat -> (is_pair ptr1 j /\ ~ is_pair ptr2 j) \/ (~ is_pair ptr1 j /\ is_pair ptr2 j)).
Proof. exact fused_structs. Qed.
Print Assumptions C13_fused_split.
(** the sparse updates are exact proximal operators of the weighted TV of the visited blocks
    (the TV of a singleton block is 0) *)
Theorem C13_fused_sparse_prox : forall (which : bool) (alpha step : R) data ptr (x : list R) i indices indptr (d : list R),
  (if which then fused_blocks_1 (length x) else fused_blocks_2 (length x)) = Ok (data, ptr) ->
  (1 <= length x)%nat ->
  row_ok indices indptr i -> NoDup (csr_row indices indptr i) ->
  Forall (fun h => (S h < length ptr)%nat /\ (h < length d)%nat) (csr_row indices indptr i) ->
  0 <= alpha -> 0 <= step -> Forall (fun t => 0 <= t) d ->
  exists x', @fused_sparse_prox RN alpha data ptr x i indices indptr d step = Ok x' /\ length x' = length x /\
    (forall j, (forall h, In h (csr_row indices indptr i) -> ~ In j (blk ptr h)) -> nth j x' 0 = nth j x 0) /\
    is_prox (fun y => Rsum (map (fun h => alpha * nth h d 0 * tv (sub y (blk ptr h))) (csr_row indices indptr i))) step x x'.
Proof. exact fused_sparse_both. Qed.
Print Assumptions C13_fused_sparse_prox.
Example C13_nonvacuous :
  fused_blocks_1 5 = Ok ([1;1;1;1;-1]%Z, [0;2;4;5]%nat) /\ fused_blocks_2 5 = Ok ([-1;1;1;1;1]%Z, [0;1;3;5]%nat) /\
  row_ok [1]%nat [0;1]%nat 0 /\ NoDup (csr_row [1]%nat [0;1]%nat 0) /\
  fused_sparse_prox (K := QN) 1%Q [1;1;1;1;-1]%Z [0;2;4;5]%nat [0;0;(5#1);1;0]%Q 0 [1]%nat [0;1]%nat [1;1;1]%Q 1%Q
   = Ok [0;0;(4#1);(2#1);0]%Q.
Proof.
  repeat split; simpl; try lia. unfold csr_row; simpl; repeat constructor; simpl; tauto.
Qed.
