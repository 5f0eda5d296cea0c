(** * SpecFiniteSum: the finite-sum objective of the randomized solvers, in the words of the documentation

    minimize (1/n) sum_i f(A_i^T x, b_i) + (alpha/2) ||x||^2, A given by its CSR arrays (repeated column
    indices are summed), f by its derivative. *)
From Coq Require Import Reals List.
From Verif Require Import Num Vec Spec SpecSparse ModelRandomized.
Import ListNotations.
Local Open Scope R_scope.

(** CSR data with every access in bounds and n labels or more; rows may be unsorted, empty, or contain a
    column index several times *)
Definition problem_wf {K : Num} (P : problem K) : Prop :=
  csr_wf (p_n P) (p_d P) (p_indices P) (p_indptr P) /\ length (p_data P) = length (p_indices P) /\ (p_n P <= length (p_b P))%nat.
(** no column index twice in a row *)
Definition canonical {K : Num} (P : problem K) : Prop :=
  forall i, (i < p_n P)%nat -> NoDup (csr_row (p_indices P) (p_indptr P) i).
(** entry (i, c) of A and the product A_i^T x *)
Definition ent (P : problem RN) (i c : nat) : R := csr_entry (p_data P) (p_indptr P) (p_indices P) i c.
Definition adot (P : problem RN) (i : nat) (x : list R) : R := Rsum (map (fun c => ent P i c * nth c x 0) (seq 0 (p_d P))).
(** derivative of the loss of sample i at x *)
Definition loss_deriv (P : problem RN) (x : list R) (i : nat) : R := p_fd P (adot P i x) (nth i (p_b P) 0).
(** (1/n) sum_i u_i A_ij *)
Definition mean_row (P : problem RN) (u : nat -> R) (j : nat) : R :=
  / INR (p_n P) * Rsum (map (fun i => u i * ent P i j) (seq 0 (p_n P))).
(** coordinate j of the gradient of the smooth part, without the alpha term *)
Definition grad_F (P : problem RN) (x : list R) (j : nat) : R := mean_row P (loss_deriv P x) j.
(** feature j is in a block that contains a stored feature of sample i (its extended support) *)
Definition sample_block {K : Num} (P : problem K) (ptr : list nat) (i j : nat) : Prop :=
  exists h c, (S h < length ptr)%nat /\ In j (blk ptr h) /\ In c (blk ptr h) /\ In c (csr_row (p_indices P) (p_indptr P) i).
(** some sample has a stored entry in the block of feature j *)
Definition touched {K : Num} (P : problem K) (ptr : list nat) (j : nat) : Prop :=
  exists i, (i < p_n P)%nat /\ sample_block P ptr i j.
(** an operator that works in place keeps the length of the array *)
Definition in_place {K : Num} (prox : sprox K) : Prop :=
  forall x i a b c st x', prox x i a b c st = Ok x' -> length x' = length x.
(** an operator that, called for sample i, changes only features of the blocks of sample i *)
Definition local_prox {K : Num} (P : problem K) (ptr : list nat) (B : blocks K) (prox : sprox K) : Prop :=
  forall x i st x', (i < p_n P)%nat -> length x = p_d P -> prox x i (k_bsi B) (k_bsp B) (k_d B) st = Ok x' ->
  forall j, ~ sample_block P ptr i j -> nth j x' n0 = nth j x n0.
(** called for sample i, the exact proximal operator of the penalty sum_h d_h g_h(x_h) over the blocks h
    of sample i, where d_h are the weights given by the solver (the contract of prox_factory, C11-C13) *)
Definition sparse_prox_of (P : problem RN) (ptr : list nat) (B : blocks RN) (g : nat -> list R -> R) (prox : sprox RN) : Prop :=
  forall (x : list R) i st, (i < p_n P)%nat -> length x = p_d P -> 0 <= st ->
  exists x' : list R, prox x i (k_bsi B) (k_bsp B) (k_d B) st = Ok x' /\ length x' = length x /\
    is_prox (fun y => Rsum (map (fun h => nth h (k_d B) 0 * g h (sub y (blk ptr h))) (csr_row (k_bsi B) (k_bsp B) i))) st x x'.
(** the objective: losses f, penalties g_h on the blocks *)
Definition finite_sum (P : problem RN) (f : R -> R -> R) (x : list R) : R :=
  / INR (p_n P) * Rsum (map (fun i => f (adot P i x) (nth i (p_b P) 0)) (seq 0 (p_n P))) + p_alpha P / 2 * dot x x.
Definition block_penalty (ptr : list nat) (g : nat -> list R -> R) (x : list R) : R :=
  Rsum (map (fun h => g h (sub x (blk ptr h))) (seq 0 (length ptr - 1))).
(** f is convex with derivative P.f_deriv in its first argument (first-order form) *)
Definition convex_loss (P : problem RN) (f : R -> R -> R) : Prop :=
  forall p q b, f q b >= f p b + p_fd P p b * (q - p).
