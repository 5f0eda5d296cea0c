(** * Model of copt/constraint.py (vector constraints; TraceBall is in ModelTrace.v) *)
From Coq Require Import ZArith QArith Bool List.
From Verif Require Import Num Vec.
Import ListNotations.
Set Implicit Arguments.

Section Constraint.
Context {K : Num}.
Local Open Scope num_scope.

(** copt/constraint.py:18-28  LinfBall.prox: [x.clip(-alpha, alpha)] *)
Definition linf_prox (alpha : K) (x : vec K) : vec K :=
  map (nclip (- alpha) alpha) x.

(** copt/constraint.py:43-57  L2Ball.prox.  [(x ** 2).sum()] is written as a sum of squares;
    [self.alpha * x / norm] multiplies first. *)
Definition l2_prox (alpha : K) (x : vec K) : vec K :=
  let norm := nsqrt K (vsum (map nsq x)) in
  if norm <=? alpha then x
  else map (fun t => alpha * t / norm) x.

(** copt/constraint.py:75-79  L1Ball.__call__: 0 inside the ball, +inf outside
    (here [true] = 0, [false] = inf). *)
Definition l1ball_call (alpha : K) (x : vec K) : bool :=
  vsum (vabs x) <=? alpha.

(** [np.nonzero(mask)[0][-1]]: index of the last true entry, IndexError if there is none. *)
Fixpoint last_true_from (i : nat) (mask : list bool) (best : option nat) : option nat :=
  match mask with
  | [] => best
  | b :: mask' => last_true_from (S i) mask' (if b then Some i else best)
  end.
Definition last_true (mask : list bool) : result nat :=
  match last_true_from 0 mask None with Some i => Ok i | None => Err IndexError end.

(** copt/constraint.py:229 [u * np.arange(1, n + 1) > (cssv - s)] *)
Fixpoint rho_mask_from (k : nat) (s : K) (u cssv : vec K) : list bool :=
  match u, cssv with
  | a :: u', c :: cssv' => ((c - s) <? (a * nofnat (S k))) :: rho_mask_from (S k) s u' cssv'
  | _, _ => []
  end.

(** copt/constraint.py:192-234  euclidean_proj_simplex.  The 1-D shape check (line 220) is
    implicit: a [vec] is 1-D. *)
Definition proj_simplex (v : vec K) (s : K) : result (vec K) :=
  if negb (n0 <? s) then Err AssertionError                       (* line 219 *)
  else if (vsum v =? s) && forallb (fun t => n0 <=? t) v then Ok v (* lines 222-224 *)
  else
    let u := sort_desc v in                                       (* line 226 *)
    let cssv := cumsum u in                                       (* line 227 *)
    rho <- last_true (rho_mask_from 0 s u cssv) ;;                (* line 229 *)
    c <- get cssv rho ;;
    let theta := (c - s) / (nofnat rho + n1) in                   (* line 231 *)
    Ok (map (fun t => let y := t - theta in if y <? n0 then n0 else y) v).  (* line 233 *)

(** copt/constraint.py:237-271  euclidean_proj_l1ball *)
Definition proj_l1ball (v : vec K) (s : K) : result (vec K) :=
  if negb (n0 <? s) then Err AssertionError                       (* line 257 *)
  else
    let u := vabs v in                                            (* line 261 *)
    if vsum u <=? s then Ok v                                     (* lines 263-265 *)
    else
      w <- proj_simplex u s ;;                                    (* line 268 *)
      Ok (map2 (nmul K) w (map nsign v)).                         (* line 270 *)

(** copt/constraint.py:81-93  L1Ball.prox *)
Definition l1ball_prox (alpha : K) (x : vec K) : result (vec K) := proj_l1ball x alpha.
(** copt/constraint.py:176-177  SimplexConstraint.prox *)
Definition simplex_prox (s : K) (x : vec K) : result (vec K) := proj_simplex x s.

(** Vertex representations [(sign, index)] used as dictionary keys, and the tuple returned by
    an LMO: (update_direction, fw_vertex_rep, away_vertex_rep, max_step_size). *)
Definition rep : Type := (K * nat)%type.
Record lmo_out : Type := mkLmo {
  lmo_dir : vec K;
  lmo_fw : option rep;
  lmo_away : option rep;
  lmo_max_step : K
}.
(** The active set is a dict from vertex representation to weight, in insertion order. *)
Definition active : Type := list (rep * K).

(** copt/constraint.py:95-128  L1Ball.lmo *)
Definition l1_lmo (alpha : K) (u x : vec K) : result lmo_out :=
  largest <- argmax (vabs u) ;;                                  (* lines 118-119 *)
  ul <- get u largest ;;
  let sign := nsign ul in                                        (* line 120 *)
  let d0 := vopp x in                                            (* line 122 *)
  dl <- get d0 largest ;;
  d1 <- set d0 largest (dl + alpha * sign) ;;                    (* line 123 *)
  Ok (mkLmo d1 (Some (sign, largest)) None n1).                  (* lines 126-128 *)

(** copt/constraint.py:159-162  _correlation (u[idx] raises IndexError out of range) *)
Definition correlation (u : vec K) (r : rep) : result K :=
  ui <- get u (snd r) ;; Ok (fst r * ui).

(** copt/constraint.py:164-165  [min(active_set.items(), key=...)]: the first item whose key is
    minimal; ValueError on an empty dict. *)
Fixpoint min_item_from (u : vec K) (best : rep * K) (bkey : K) (l : active) : result (rep * K) :=
  match l with
  | [] => Ok best
  | it :: l' =>
      k <- correlation u (fst it) ;;
      if k <? bkey then min_item_from u it k l' else min_item_from u best bkey l'
  end.
Definition min_item (u : vec K) (l : active) : result (rep * K) :=
  match l with
  | [] => Err ValueError
  | it :: l' => k <- correlation u (fst it) ;; min_item_from u it k l'
  end.

(** copt/constraint.py:130-169  L1Ball.lmo_pairwise *)
Definition l1_lmo_pairwise (alpha : K) (u x : vec K) (act : active) : result lmo_out :=
  o <- l1_lmo alpha u x ;;                                       (* line 156 *)
  let d := vadd (lmo_dir o) x in                                 (* line 157 *)
  away <- min_item u act ;;                                      (* lines 164-165 *)
  let '(sign, idx) := fst away in                                (* line 167 *)
  di <- get d idx ;;
  d' <- set d idx (di - sign * alpha) ;;                         (* line 168 *)
  Ok (mkLmo d' (lmo_fw o) (Some (fst away)) (snd away)).         (* line 169 *)

(** copt/constraint.py:179-190  SimplexConstraint.lmo *)
Definition simplex_lmo (s : K) (u x : vec K) : result lmo_out :=
  largest <- argmax u ;;                                         (* line 183 *)
  ul <- get u largest ;;
  let d0 := vopp x in                                            (* line 185 *)
  dl <- get d0 largest ;;
  d1 <- set d0 largest (dl + s * nsign ul) ;;                    (* lines 186-188 *)
  Ok (mkLmo d1 (Some (n1, largest)) None n1).                    (* line 190 *)

End Constraint.
Arguments active K : clear implicits.
Arguments rep K : clear implicits.
Arguments lmo_out K : clear implicits.

(** Executable smoke tests of the model (tests, not proofs). *)
Example proj_l1_runs :
  proj_l1ball (K := QN) [(3#1)%Q; (-(1#1))%Q] (2#1)%Q = Ok [(2#1)%Q; 0%Q].
Proof. vm_compute. reflexivity. Qed.
