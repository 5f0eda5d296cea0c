(** * SpecLoss: the documented loss functions and derivatives, independent of the model.

    [A]: list of rows. *)
From Coq Require Import Reals List.
From Verif Require Import Spec.
Import ListNotations.
Open Scope R_scope.

Definition matvec (A : list (list R)) (x : list R) : list R := map (fun r => dot r x) A.
Definition rect (d : nat) (A : list (list R)) : Prop := Forall (fun r => length r = d) A.
(** (1/n) sum_i phi (b_i) (<a_i, x>) *)
Definition mean_loss (phi : R -> R -> R) (A : list (list R)) (b : list R) (x : list R) : R :=
  Rsum (map (fun p => phi (fst p) (dot (snd p) x)) (combine b A)) / INR (length A).
(** the same with an intercept c *)
Definition mean_loss_c (phi : R -> R -> R) (A : list (list R)) (b : list R) (w : list R) (c : R) : R :=
  Rsum (map (fun p => phi (fst p) (dot (snd p) w + c)) (combine b A)) / INR (length A).

Definition sigma (t : R) : R := / (1 + exp (- t)).
(** copt/loss.py:12-19 *)
Definition log_term (b t : R) : R := - (b * ln (sigma t) + (1 - b) * ln (1 - sigma t)).
Definition sq_term (b t : R) : R := / 2 * ((t - b) * (t - b)).
Definition huber (delta t : R) : R := if Rle_dec (Rabs t) delta then / 2 * (t * t) else delta * (Rabs t - / 2 * delta).
Definition hub_term (delta b t : R) : R := huber delta (t - b).
Definition ridge (alpha : R) (F : list R -> R) (x : list R) : R := F x + alpha / 2 * dot x x.

(** g is the gradient (Frechet derivative) of F at x *)
Definition is_gradient (n : nat) (F : list R -> R) (x g : list R) : Prop :=
  length g = n /\ forall eps, 0 < eps -> exists del, 0 < del /\ forall y, length y = n -> norm2 (vminus y x) <= del ->
    Rabs (F y - F x - dot g (vminus y x)) <= eps * norm2 (vminus y x).
(** s is the largest singular value of A: the norm of x |-> A x, attained *)
Definition opnorm (d : nat) (A : list (list R)) (s : R) : Prop :=
  0 <= s /\ (forall v, length v = d -> norm2 (matvec A v) <= s * norm2 v) /\
  exists v, length v = d /\ v <> zeros d /\ norm2 (matvec A v) = s * norm2 v.
(** H is the derivative of G at x *)
Definition is_derivative (n : nat) (G : list R -> list R) (x : list R) (H : list R -> list R) : Prop :=
  forall eps, 0 < eps -> exists del, 0 < del /\ forall y, length y = n -> norm2 (vminus y x) <= del ->
    norm2 (vminus (vminus (G y) (G x)) (H (vminus y x))) <= eps * norm2 (vminus y x).
