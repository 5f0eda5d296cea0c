(** * Spec: the specification vocabulary, over the reals, independent of the model.

    Vectors are lists of reals.  Nothing in this file mentions a definition of the model. *)
From Coq Require Import Reals List.
Import ListNotations.
Open Scope R_scope.

Fixpoint Rsum (l : list R) : R := match l with [] => 0 | x :: l' => x + Rsum l' end.
Fixpoint dot (u v : list R) : R :=
  match u, v with a :: u', b :: v' => a * b + dot u' v' | _, _ => 0 end.
(** squared Euclidean distance *)
Fixpoint dist2 (u v : list R) : R :=
  match u, v with a :: u', b :: v' => (a - b) * (a - b) + dist2 u' v' | _, _ => 0 end.
Definition norm2 (v : list R) : R := sqrt (dot v v).
Fixpoint l1 (v : list R) : R := match v with [] => 0 | x :: v' => Rabs x + l1 v' end.

(** Points of a set, nearest to [x]: Euclidean projection, with uniqueness. *)
Definition is_projection (C : list R -> Prop) (x p : list R) : Prop :=
  length p = length x /\ C p /\
  (forall y, length y = length x -> C y -> dist2 p x <= dist2 y x) /\
  (forall y, length y = length x -> C y -> dist2 y x <= dist2 p x -> y = p).

(** Proximal operator of [g] (with value +infinity outside [dom]) with parameter [step]:
    the unique minimiser of  step * g y + 1/2 ||y - x||^2. *)
Definition prox_obj (g : list R -> R) (step : R) (x y : list R) : R :=
  step * g y + / 2 * dist2 y x.
Definition is_prox_on (dom : list R -> Prop) (g : list R -> R) (step : R) (x p : list R) : Prop :=
  length p = length x /\ dom p /\
  (forall y, length y = length x -> dom y -> prox_obj g step x p <= prox_obj g step x y) /\
  (forall y, length y = length x -> dom y -> prox_obj g step x y <= prox_obj g step x p -> y = p).
Definition is_prox (g : list R -> R) (step : R) (x p : list R) : Prop :=
  is_prox_on (fun _ => True) g step x p.

(** Maximiser of a linear function over a set. *)
Definition is_lin_max (C : list R -> Prop) (u s : list R) : Prop :=
  length s = length u /\ C s /\
  (forall y, length y = length u -> C y -> dot u y <= dot u s).

(** The sets and penalties of the library. *)
Definition linf_ball (a : R) (v : list R) : Prop := Forall (fun t => Rabs t <= a) v.
Definition l2_ball (a : R) (v : list R) : Prop := norm2 v <= a.
Definition l1_ball (a : R) (v : list R) : Prop := l1 v <= a.
Definition simplex (s : R) (v : list R) : Prop := Forall (fun t => 0 <= t) v /\ Rsum v = s.
(** the set documented for SimplexConstraint.lmo *)
Definition solid_simplex (s : R) (v : list R) : Prop := Forall (fun t => 0 <= t) v /\ l1 v <= s.

(** 1-D total variation: sum_i |x_{i+1} - x_i| *)
Fixpoint tv (v : list R) : R :=
  match v with
  | a :: ((b :: _) as v') => Rabs (b - a) + tv v'
  | _ => 0
  end.

(** linear-algebra helpers used to state theorems *)
Fixpoint lin (a : R) (u : list R) (b : R) (v : list R) : list R :=
  match u, v with x :: u', y :: v' => (a * x + b * y) :: lin a u' b v' | _, _ => [] end.
Definition vplus u v := lin 1 u 1 v.
Definition vminus u v := lin 1 u (-1) v.
Definition smul (a : R) (u : list R) : list R := map (Rmult a) u.
Definition zeros (n : nat) : list R := repeat 0 n.
Definition unit_vec (n i : nat) : list R := map (fun j => if Nat.eqb j i then 1 else 0) (seq 0 n).

(** Convexity of an extended-valued function (domain + value) on vectors of length n. *)
Definition convex_set (n : nat) (dom : list R -> Prop) : Prop :=
  forall u v t, length u = n -> length v = n -> dom u -> dom v -> 0 <= t <= 1 ->
    dom (lin (1 - t) u t v).
Definition convex_on (n : nat) (dom : list R -> Prop) (g : list R -> R) : Prop :=
  convex_set n dom /\
  forall u v t, length u = n -> length v = n -> dom u -> dom v -> 0 <= t <= 1 ->
    g (lin (1 - t) u t v) <= (1 - t) * g u + t * g v.
(** [w] is a subgradient of g at x *)
Definition subgrad (n : nat) (dom : list R -> Prop) (g : list R -> R) (x w : list R) : Prop :=
  length w = n /\ dom x /\
  forall y, length y = n -> dom y -> g x + dot w (vminus y x) <= g y.
Definition is_min (n : nat) (dom : list R -> Prop) (F : list R -> R) (x : list R) : Prop :=
  length x = n /\ dom x /\ forall y, length y = n -> dom y -> F x <= F y.
