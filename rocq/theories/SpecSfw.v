(** * SpecSfw: vocabulary for the stochastic Frank-Wolfe solver *)
From Coq Require Import Reals List Bool.
From Verif Require Import Num Vec Spec SpecSparse ModelRandomized SpecFiniteSum ModelSfw.
Import ListNotations.
Local Open Scope R_scope.

(** what numpy guarantees about the draws: n indices below n when batch_size is 1; otherwise
    n // batch_size batches, each without repetition *)
Definition valid_draws (n bs : nat) (draws : nat -> list nat) : Prop :=
  forall it, Forall (fun i => (i < n)%nat) (draws it) /\
    (bs = 1%nat -> length (draws it) = n) /\
    (bs <> 1%nat -> length (draws it) = (n / bs * bs)%nat /\
       forall k, (k < n / bs)%nat -> NoDup (firstn bs (skipn (k * bs) (draws it)))).
(** coordinate j of sum_i u_i A_i *)
Definition dual_sum (P : problem RN) (u : list R) (j : nat) : R :=
  Rsum (map (fun i => nth i u 0 * ent P i j) (seq 0 (p_n P))).
(** the iterate at which sample [i] was visited last, in a history given newest first *)
Fixpoint last_visit {K : Num} (h : list (sfw_iter K)) (i : nat) : option (list K) :=
  match h with
  | [] => None
  | r :: h' => if in_dec Nat.eq_dec i (si_batch r) then Some (sw_x (si_prev r)) else last_visit h' i
  end.
(** the states of a run: the initial one and those seen by the callback *)
Definition sfw_states {K : Num} (s0 : sfw_state K) (h : list (sfw_iter K)) : list (sfw_state K) :=
  map si_next h ++ [s0].
(** a state with the shapes of the problem whose aggregate is sum_i dual_i A_i (every state of every run, C64) *)
Definition sfw_consistent (P : problem RN) (variant : sfw_variant) (s : sfw_state RN) : Prop :=
  length (sw_x s) = p_d P /\ length (sw_dual s) = p_n P /\ length (sw_agg s) = p_d P /\ (variant = LF -> length (sw_sigma s) = p_n P) /\
  forall j, (j < p_d P)%nat -> nth j (sw_agg s) 0 = dual_sum P (sw_dual s) j.
(** a family of batches of size [bs] without repetition that contains every sample equally often, [c] times *)
Definition balanced (n bs c : nat) (batches : list (list nat)) : Prop :=
  Forall (fun b => Forall (fun i => (i < n)%nat) b /\ NoDup b /\ length b = bs) batches /\
  forall i, (i < n)%nat -> count_occ Nat.eq_dec (concat batches) i = c.
(** the objective of minimize_sfw *)
Definition mean_loss (P : problem RN) (f : R -> R -> R) (x : list R) : R :=
  / INR (p_n P) * Rsum (map (fun i => f (adot P i x) (nth i (p_b P) 0)) (seq 0 (p_n P))).
Definition grad_list (P : problem RN) (x : list R) : list R := map (grad_F P x) (seq 0 (p_d P)).
(** all sequences of [k] indices below [n] *)
Fixpoint words (n k : nat) : list (list nat) :=
  match k with O => [[]] | S k' => flat_map (fun w => map (fun i => w ++ [i]) (seq 0 n)) (words n k') end.
(** the draws of a run with batch_size = 1 that uses the indices [w] in order, n per epoch *)
Definition epoch_draws (n : nat) (w : list nat) (it : nat) : list nat := firstn n (skipn (it * n) w).
