(** * SpecEpochs: regularity of a finite sum, in terms of the data *)
From Coq Require Import Reals List.
From Verif Require Import Num Vec Spec SpecSparse ModelRandomized SpecFiniteSum.
Import ListNotations.
Local Open Scope R_scope.

(** f has derivative f_deriv, Lipschitz with constant lphi; every term f(A_i^T x, b_i) is then L-smooth *)
Definition lip_losses (P : problem RN) (f : R -> R -> R) (lphi L : R) : Prop :=
  (forall p b, derivable_pt_lim (fun t => f t b) p (p_fd P p b)) /\
  (forall p q b, Rabs (p_fd P p b - p_fd P q b) <= lphi * Rabs (p - q)) /\
  0 <= lphi /\ 0 <= L /\ forall i, (i < p_n P)%nat -> lphi * Rsum (map (fun j => ent P i j * ent P i j) (seq 0 (p_d P))) <= L.
(** sample i stores feature j *)
Definition stores (P : problem RN) (i j : nat) : Prop := In j (csr_row (p_indices P) (p_indptr P) i).
(** number of samples that store feature j *)
Definition storing (P : problem RN) (j : nat) : nat :=
  length (filter (fun i => existsb (Nat.eqb j) (csr_row (p_indices P) (p_indptr P) i)) (seq 0 (p_n P))).
(** a feature stored by some sample is stored by at least n / D samples: D = 1 for dense data, D = n is always correct *)
Definition spread (P : problem RN) (D : R) : Prop :=
  forall i j, (i < p_n P)%nat -> stores P i j -> INR (p_n P) <= D * INR (storing P j).
(** every feature is stored by some sample *)
Definition all_stored (P : problem RN) : Prop := forall j, (j < p_d P)%nat -> exists i, (i < p_n P)%nat /\ stores P i j.
(** every sample gradient at x, f_deriv(A_i^T x, b_i) A_i, has norm at most G0 *)
Definition sample_grads (P : problem RN) (x : list R) (G0 : R) : Prop :=
  0 <= G0 /\ forall i, (i < p_n P)%nat -> (loss_deriv P x i * loss_deriv P x i) * Rsum (map (fun j => ent P i j * ent P i j) (seq 0 (p_d P))) <= G0 * G0.
(** samples with a stored feature in block h, and the bound on the weights for a block structure *)
Definition block_samples (P : problem RN) (ptr : list nat) (h : nat) : list nat :=
  filter (fun i => existsb (fun c => existsb (Nat.eqb c) (blk ptr h)) (csr_row (p_indices P) (p_indptr P) i)) (seq 0 (p_n P)).
Definition block_spread (P : problem RN) (ptr : list nat) (D : R) : Prop :=
  forall h, (S h < length ptr)%nat -> block_samples P ptr h <> [] -> INR (p_n P) <= D * INR (length (block_samples P ptr h)).
(** a sample that stores a feature of a block stores every feature of that block *)
Definition block_dense (P : problem RN) (ptr : list nat) : Prop := forall i j, (i < p_n P)%nat -> sample_block P ptr i j -> stores P i j.
