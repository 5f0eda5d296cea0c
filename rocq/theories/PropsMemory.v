(** * Arrays in memory: the caller's arrays, element types, shared arrays (C69, C101, C102, C103)

    [load h l] is the content of the array l of the heap h; the arrays that exist before a call are those below
    [length h].  [cast] is the conversion to the element type of x0 that numpy applies in [x[:] = ...]. *)
From Coq Require Import ZArith Reals List Bool Lra Lia.
From Verif Require Import Num Vec Spec RVec ModelUtils ModelProxGrad ModelSplitting ModelRandomized ModelMemory RandomizedRuns MemoryMain.
Import ListNotations.
Open Scope R_scope.

(** ** C69: SAGA and SVRG return a new array and leave the arrays of the caller alone *)
Theorem C69_saga_memory : forall (K : Num) (P : problem K) (h : heap K) (x0 : loc) (step : option K) (prox : option (sprox K)) (ptr : option (list nat)) (max_iter : nat) (tol : K) (perms : nat -> list nat),
  (x0 < length h)%nat ->
  match minimize_saga P (load h x0) step prox ptr max_iter tol perms with
  | Err e => minimize_saga_mem P h x0 step prox ptr max_iter tol perms = Err e
  | Ok r => exists m, minimize_saga_mem P h x0 step prox ptr max_iter tol perms = Ok m /\ load (mr_heap m) (mr_x m) = er_x r /\ mr_success m = er_success r /\ mr_nit m = er_nit r /\
      (length h <= mr_x m)%nat /\ forall l, (l < length h)%nat -> load (mr_heap m) l = load h l
  end.
Proof. exact main_C69_saga_memory. Qed.
Print Assumptions C69_saga_memory.
Theorem C69_svrg_memory : forall (K : Num) (P : problem K) (h : heap K) (x0 : loc) (step : option K) (prox : option (sprox K)) (ptr : option (list nat)) (max_iter : nat) (tol : K) (perms : nat -> list nat),
  (x0 < length h)%nat ->
  match minimize_svrg P (load h x0) step prox ptr max_iter tol perms with
  | Err e => minimize_svrg_mem P h x0 step prox ptr max_iter tol perms = Err e
  | Ok r => exists m, minimize_svrg_mem P h x0 step prox ptr max_iter tol perms = Ok m /\ load (mr_heap m) (mr_x m) = er_x r /\ mr_success m = er_success r /\ mr_nit m = er_nit r /\
      (length h <= mr_x m)%nat /\ forall l, (l < length h)%nat -> load (mr_heap m) l = load h l
  end.
Proof. exact main_C69_svrg_memory. Qed.
Print Assumptions C69_svrg_memory.
(** one sample, x0 among two arrays of the caller, a run that succeeds in its second epoch *)
Example C69_memory_nonvacuous : (1 < @length (vec F64) [[nlit 7 1]; [n1 : F64]])%nat /\
  match minimize_saga_mem (K:=F64) one_problem [[nlit 7 1]; [n1]] 1%nat (Some (nlit 1 2)) None None 3 (nlit 1 2) (fun _ => [0%nat]) with
  | Ok m => mr_success m = true /\ mr_x m = 2%nat | Err _ => False end.
Proof. split; [cbn; lia|]. vm_compute. split; reflexivity. Qed.

(** ** C101: integer starting points *)
Theorem C101_float_partial : forall (K : Num) (fg : vec K -> K * vec K) (prox : vec K -> K -> vec K) cb (step : strategy K) (tol : K) (max_iter max_bt : nat) (factor : K) (tc : bool) (h : heap K) (x0 : loc),
  match minimize_pg fg prox cb step tol max_iter max_bt factor false tc (load h x0) with
  | Err e => minimize_pg_mem fg prox cb step tol max_iter max_bt factor (fun a => a) tc h x0 = Err e
  | Ok r => exists h' refs, minimize_pg_mem fg prox cb step tol max_iter max_bt factor (fun a => a) tc h x0 = Ok (h', refs, r)
  end.
Proof. exact main_C101_float_partial. Qed.
Print Assumptions C101_float_partial.
Theorem C101_elements : forall (K : Num) (fg : vec K -> K * vec K) (prox : vec K -> K -> vec K) cb (step : strategy K) (tol : K) (max_iter max_bt : nat) (factor : K) (cast : K -> K) (tc : bool) (h : heap K) (x0 : loc) h' refs r,
  map cast (load h x0) = load h x0 -> minimize_pg_mem fg prox cb step tol max_iter max_bt factor cast tc h x0 = Ok (h', refs, r) ->
  (forall l, (l < length h)%nat -> load h' l = load h l) /\ exists v, r_x r = map cast v.
Proof. exact main_C101_elements. Qed.
Print Assumptions C101_elements.
Theorem C101_integer_refuted : forall (L tol factor : R) (max_iter max_bt : nat), 0 < L -> 0 < tol -> (0 < max_iter)%nat -> (0 < max_bt)%nat ->
  exists r1 h2 refs r2,
  minimize_pg (K:=RN) (halfway L) (fun x _ => x) None (SCallable (K:=RN) (fun _ => 1 / L)) tol max_iter max_bt factor false false [0] = Ok r1 /\ r_success r1 = true /\ r_x r1 = [1 / 2] /\
  minimize_pg_mem (K:=RN) (halfway L) (fun x _ => x) None (SCallable (K:=RN) (fun _ => 1 / L)) tol max_iter max_bt factor int_cast false [[0]] 0%nat = Ok (h2, refs, r2) /\ r_success r2 = true /\ r_x r2 = [0] /\
  norm2 (snd (halfway L (r_x r2))) = L / 2.
Proof. exact main_C101_integer_refuted. Qed.
Print Assumptions C101_integer_refuted.
Theorem C101_primal_dual : forall (K : Num) (cast_x cast_y : K -> K) (fg : vec K -> K * vec K) (h : heap K) (x0 : loc) prox_1 prox_2 L (tol : K) (max_iter : nat) cb (step_size : K) step_size2 (line_search : bool) (max_iter_ls ls_fuel : nat) h' r,
  minimize_primal_dual_mem cast_x cast_y Fresh fg h x0 prox_1 prox_2 L tol max_iter cb step_size step_size2 line_search max_iter_ls ls_fuel = Ok (h', r) ->
  (forall l, (l < length h)%nat -> load h' l = load h l) /\ exists v, pr_x r = map cast_x v.
Proof. exact main_C101_primal_dual. Qed.
Print Assumptions C101_primal_dual.
Example C101_nonvacuous : int_cast (7 / 2) = 3 /\ int_cast (- (7 / 2)) = -3 /\ (forall z : Z, int_cast (IZR z) = IZR z) /\ 0 < 1000 /\ 0 < 1 / 1000 /\ (0 < 500)%nat.
Proof.
  repeat split; try lra; try lia.
  - destruct (int_cast_spec (7 / 2)) as (z & E & A & B). unfold int_cast in *. destruct (Rlt_dec (7 / 2) 0); [lra|]. destruct (base_Int_part (7 / 2)) as (C & D). apply (f_equal IZR (x:=Int_part (7/2)) (y:=3%Z)).
    assert (2 < Int_part (7 / 2) < 4)%Z; [|lia]. split; apply lt_IZR; lra.
  - destruct (int_cast_spec (- (7 / 2))) as (z & E & A & B). unfold int_cast in *. destruct (Rlt_dec (- (7 / 2)) 0); [|lra]. rewrite Ropp_involutive. destruct (base_Int_part (7 / 2)) as (C & D). change (-3) with (- (3)). f_equal. apply (f_equal IZR (x:=Int_part (7/2)) (y:=3%Z)).
    assert (2 < Int_part (7 / 2) < 4)%Z; [|lia]. split; apply lt_IZR; lra.
  - exact int_cast_integer.
Qed.

(** ** C102: an operator whose matvec returns its argument *)
Theorem C102_fresh_partial : forall (K : Num) (fg : vec K -> K * vec K) (h : heap K) (x0 : loc) prox_1 prox_2 L (tol : K) (max_iter : nat) cb (step_size : K) step_size2 (line_search : bool) (max_iter_ls ls_fuel : nat),
  match minimize_primal_dual fg (load h x0) prox_1 prox_2 L tol max_iter cb step_size step_size2 line_search max_iter_ls ls_fuel with
  | Err e => minimize_primal_dual_mem (fun a => a) (fun a => a) Fresh fg h x0 prox_1 prox_2 L tol max_iter cb step_size step_size2 line_search max_iter_ls ls_fuel = Err e
  | Ok r => exists h', minimize_primal_dual_mem (fun a => a) (fun a => a) Fresh fg h x0 prox_1 prox_2 L tol max_iter cb step_size step_size2 line_search max_iter_ls ls_fuel = Ok (h', r) /\
      forall l, (l < length h)%nat -> load h' l = load h l
  end.
Proof. exact main_C102_fresh_partial. Qed.
Print Assumptions C102_fresh_partial.
Theorem C102_same_array_refuted : forall (c tol : R) (max_iter lsf : nat), 0 < c -> 0 < tol <= 2 * c -> (100 < max_iter)%nat ->
  exists r1 h' r2,
  minimize_primal_dual (K:=RN) (parabola c) [- c] None None None tol max_iter None 1 None false 1 lsf = Ok r1 /\ pr_success r1 = true /\ pr_x r1 = [c] /\
  minimize_primal_dual_mem (K:=RN) (fun a => a) (fun a => a) SameArray (parabola c) [[- c]] 0%nat None None None tol max_iter None 1 None false 1 lsf = Ok (h', r2) /\ pr_success r2 = true /\ pr_x r2 = [0] /\
  norm2 (snd (parabola c (pr_x r2))) = c.
Proof. exact main_C102_same_array_refuted. Qed.
Print Assumptions C102_same_array_refuted.

(** ** C103: arrays handed to the callback *)
Theorem C103_same_array : forall (K : Num) (fg : vec K -> K * vec K) (prox : vec K -> K -> vec K) cb (step : strategy K) (tol : K) (max_iter max_bt : nat) (factor : K) (cast : K -> K) (tc : bool) (h : heap K) (x0 : loc) h' refs r,
  minimize_pg_mem fg prox cb step tol max_iter max_bt factor cast tc h x0 = Ok (h', refs, r) -> forall l, In l refs -> (length h <= l)%nat /\ load h' l = r_x r.
Proof. exact main_C103_same_array. Qed.
Print Assumptions C103_same_array.
Theorem C103_kept_refuted : forall (K : Num) (fg : vec K -> K * vec K) (prox : vec K -> K -> vec K) (t tol factor : K) (max_bt : nat) (tc : bool) (h : heap K) (x0 : loc), (0 < max_bt)%nat ->
  exists h' r l, minimize_pg_mem fg prox (Some (fun _ => false)) (SCallable (fun _ => t)) tol 0 max_bt factor (fun a => a) tc h x0 = Ok (h', [length h], r) /\
    In (EvCallback l) (r_log r) /\ lc_x l = load h x0 /\ load h' (length h) = prox (vsub (load h x0) (vscale t (snd (fg (load h x0))))) t.
Proof. exact main_C103_kept_refuted. Qed.
Print Assumptions C103_kept_refuted.
(** the array held 0 when the callback saw it and holds 1/4 afterwards *)
Example C103_nonvacuous : 0 - 1 / 2 * (1 * (0 - 1 / 2)) = 1 / 4 /\ [1 / 4] <> [0] /\ prox_step (K:=RN) (fun x _ => x) [0] (snd (halfway 1 [0])) (1 / 2) = [1 / 4].
Proof. split; [lra|]. split; [intros E; injection E; lra|]. unfold prox_step. cbn. f_equal. lra. Qed.
