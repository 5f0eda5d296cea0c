(** * Model of minimize_frank_wolfe with variant='pairwise' when None is a key of the active set

    copt/frank_wolfe.py:119 x0_rep defaults to None and line 236 stores it as a key; the away vertex
    returned by L1Ball.lmo (copt/constraint.py:128) is None, and update_active_set uses it as a key.
    ModelFrankWolfe.v has no such keys; here a key is [option (rep K)].  The rest of the loop is that of
    ModelFrankWolfe.v, except that callbacks and step rules do not see the active set. *)
From Coq Require Import ZArith Bool List.
From Verif Require Import Num Vec ModelConstraint ModelFrankWolfe.
Import ListNotations.
Set Implicit Arguments.

Section None.
Context {K : Num}.
Local Open Scope num_scope.

(** a collections.defaultdict(float) with keys None or (sign, index), in insertion order *)
Definition okey : Type := option (rep K).
Definition oactive : Type := list (okey * K).
Definition okey_eqb (a b : okey) : bool :=
  match a, b with Some a, Some b => rep_eqb a b | None, None => true | _, _ => false end.
Fixpoint ofind (d : oactive) (k : okey) : option K :=
  match d with [] => None | (k', v) :: d' => if okey_eqb k k' then Some v else ofind d' k end.
Fixpoint oset (d : oactive) (k : okey) (v : K) : oactive :=
  match d with
  | [] => [(k, v)]
  | (k', v') :: d' => if okey_eqb k k' then (k', v) :: d' else (k', v') :: oset d' k v
  end.
Definition oget (d : oactive) (k : okey) : K * oactive :=
  match ofind d k with Some v => (v, d) | None => (n0, oset d k n0) end.
Fixpoint odel (d : oactive) (k : okey) : oactive :=
  match d with [] => [] | (k', v') :: d' => if okey_eqb k k' then d' else (k', v') :: odel d' k end.
(** copt/frank_wolfe.py:97-112  update_active_set *)
Definition update_active_set_o (d : oactive) (fw away : okey) (step : K) : result oactive :=
  let '(_, d) := oget d away in                                                  (* line 101 *)
  let '(v, d) := oget d fw in let d := oset d fw (v + step) in                   (* line 102 *)
  let '(v, d) := oget d away in let d := oset d away (v - step) in               (* line 103 *)
  let '(v, d) := oget d away in
  let d := if v =? n0 then odel d away else d in                                 (* lines 105-107 *)
  let '(v, d) := oget d away in                                                  (* line 108 *)
  if v <? n0 then Err ValueError else Ok d.                                      (* lines 108-112 *)

(** copt/constraint.py:130-169  L1Ball.lmo_pairwise: [sign, idx = vertex_rep] raises TypeError for the key
    None; min evaluates the correlation of every item *)
Fixpoint strip (d : oactive) : option (active K) :=
  match d with
  | [] => Some []
  | (None, _) :: _ => None
  | (Some k, v) :: d' => match strip d' with Some a => Some ((k, v) :: a) | None => None end
  end.
Definition l1_pairwise_o (alpha : K) (u x : vec K) (a : oactive) : result (lmo_out K) :=
  o <- l1_lmo alpha u x ;;
  match strip a with Some act => l1_lmo_pairwise alpha u x act | None => Err TypeError end.
(** copt/constraint.py:95-128  L1Ball.lmo ignores the active set *)
Definition l1_lmo_o (alpha : K) (u x : vec K) (_ : oactive) : result (lmo_out K) := l1_lmo alpha u x.

Variable fg : vec K -> K * vec K.
Variable lmo : vec K -> vec K -> oactive -> result (lmo_out K).
Variable step : fw_strategy K.
Variable lipschitz : option K.
Variable tol : K.
Variable max_iter : nat.
Variable cb : option (list (fw_event K) -> bool).

(** copt/frank_wolfe.py:251-305; the active set is [a], the field fs_active is unused *)
Fixpoint fwo_loop (k it : nat) (s : fw_state K) (a : oactive) : result (fw_result K * oactive) :=
  match k with
  | O => Err UnboundLocalError
  | S k' =>
      o <- lmo (vopp (fs_grad s)) (fs_x s) a ;;                                  (* line 252 *)
      let d := lmo_dir o in
      let norm_d := nsq (vnorm d) in
      let cert := fw_cert d (fs_grad s) in
      let lip := match fs_lip s with Some l => l | None => fw_lip_init fg (fs_x s) (fs_grad s) d norm_d end in
      let s1 := mkFwS (fs_x s) (fs_f s) (fs_grad s) (fs_old s) (Some lip) None (fs_step s) (fs_log s) (fs_iters s) in
      if cert <=? tol then Ok (fw_finish cb s1 it cert o None ExitGap, a)
      else
        '(ss, lip', fgn, found, log1) <- fw_select fg step lipschitz s1 it cert lip d norm_d (lmo_max_step o) ;;
        let l := mkFwL (fs_x s) (fs_f s) (fs_grad s) it cert (Some ss) (Some fgn) None in
        let '(stop, log2) := match cb with None => (false, log1) | Some c => (c (FwCallback l :: log1), FwCallback l :: log1) end in
        let s2 := mkFwS (fs_x s) (fs_f s) (fs_grad s) (fs_old s) (Some lip') None (Some ss) log2 (fs_iters s) in
        if stop then Ok (fw_finish cb s2 it cert o (Some fgn) ExitCallback, a)
        else
          let xn := vadd (fs_x s) (vscale ss d) in
          a' <- update_active_set_o a (lmo_fw o) (lmo_away o) ss ;;              (* lines 301-303 *)
          let s3 := mkFwS xn (fst fgn) (snd fgn) (Some (fs_f s)) (Some lip') None (Some ss) log2
                      (mkFwI (fs_x s) (fs_f s) (fs_grad s) o cert lip' ss xn found it :: fs_iters s) in
          match k' with
          | O => Ok (fw_finish cb s3 it cert o (Some fgn) ExitMaxIter, a')
          | S _ => fwo_loop k' (S it) s3 a'
          end
  end.
(** copt/frank_wolfe.py:227-309 with variant='pairwise'; [x0_rep] is None by default *)
Definition minimize_fw_pairwise (x0_rep : okey) (x0 : vec K) : result (fw_result K * oactive) :=
  if tol <? n0 then Err ValueError else
  let '(f0, g0) := fg x0 in
  fwo_loop max_iter 0 (mkFwS x0 f0 g0 None lipschitz None None [FwEval x0] []) [(x0_rep, n1)].
End None.
Arguments okey K : clear implicits.
Arguments oactive K : clear implicits.
