(** * The randomized solvers: concrete runs (refutations of C58-C60, C62, C63) *)
From Coq Require Import ZArith QArith Bool List Lia Permutation Reals Lra.
From Verif Require Import Num Vec Spec SpecSparse RVec ConvexFacts ModelPenalty PenaltyFacts PenaltyFacts2 PenaltyFacts3 UtilsMain ProxGradMain SplittingRuns ModelRandomized SpecFiniteSum RandomizedFacts RandomizedBlocks RandomizedSaga RandomizedSvrg RandomizedVrtos RandomizedFix RandomizedProx RandomizedPen RandomizedMain.
Import ListNotations.
Local Open Scope R_scope.

Ltac rcomp := cbv -[Rplus Rmult Rminus Ropp Rdiv Rinv IZR Rabs Rlt_dec Rle_dec].
Ltac wf_solve := repeat match goal with
  | |- _ /\ _ => split
  | |- Forall _ _ => constructor
  | |- forall i, (i < _)%nat -> _ => let i := fresh "i" in let Hi := fresh "Hi" in intros i Hi; cbn in Hi; repeat (destruct i as [|i]; cbn; try lia)
  | |- _ => cbn; lia
  end.

(** ** C58: one sample, one feature, the entry 2 stored as 1 + 1 *)
Definition dup_problem : problem RN := mkP (K:=RN) [1; 1] [0; 0]%nat [0; 2]%nat 1 1 [0] (fun p b => p - b) 0.
Lemma main_C58_saga_unbiased_refuted :
  exists (P : problem RN) (B : blocks RN) (x0 : list R) (s : saga_state RN),
    problem_wf P /\ make_blocks P (eye_ptr (p_d P)) = Ok B /\ length x0 = p_d P /\ touched P (eye_ptr (p_d P)) 0 /\
    p_n P = 1%nat /\ p_alpha P = 0 /\
    saga_sample P B no_prox 1 0 (saga_init P x0) = Ok s /\
    nth 0 x0 0 - nth 0 (sa_x s) 0 = 2 /\
    / INR (p_n P) * Rsum (map (fun i => p_fd P (adot P i x0) (nth i (p_b P) 0) * ent P i 0) (seq 0 (p_n P))) = 4.
Proof.
  exists dup_problem. eexists. exists [1]. eexists.
  split. { unfold problem_wf, csr_wf. cbn [dup_problem p_n p_d p_indices p_indptr p_data p_b]. wf_solve. }
  split; [rcomp; reflexivity|]. split; [reflexivity|].
  split. { exists 0%nat. split; [cbn; lia|]. exists 0%nat, 0%nat. cbn. auto. }
  split; [reflexivity|]. split; [reflexivity|]. split; [rcomp; reflexivity|]. split; [cbn [nth sa_x]; lra|].
  unfold adot, ent. cbn [dup_problem p_n p_d p_data p_indices p_indptr p_fd p_b seq map Rsum nth]. rcomp. lra.
Qed.

(** ** C59: a feature stored in no sample keeps its initial value, whatever alpha is *)
Definition untouched_problem : problem RN := mkP (K:=RN) [1] [0]%nat [0; 1]%nat 1 2 [0] (fun p b => p - b) 1.
Lemma untouched_wf : problem_wf untouched_problem.
Proof. unfold problem_wf, csr_wf. cbn [untouched_problem p_n p_d p_indices p_indptr p_data p_b]. wf_solve. Qed.
Lemma R0lt tol : 0 < tol -> nltb RN (vnorm1 (K:=RN) (vsub (K:=RN) [0;1] [0;1])) tol = true.
Proof. intros H. apply Rltb_true. cbn. rewrite !Rminus_eq_0, Rabs_R0. lra. Qed.
Lemma main_C59_optimal_refuted : forall (step tol : R) (max_iter : nat) (perms : nat -> list nat),
  0 < tol -> perms 0%nat = [0%nat] ->
  exists (P : problem RN) (f : R -> R -> R) (x0 : list R) (rs : epoch_result RN (saga_state RN)) (rv : epoch_result RN (vec RN * vec RN)),
    problem_wf P /\ canonical P /\ length x0 = p_d P /\ 0 < p_alpha P /\
    (forall p q b, f q b >= f p b + p_fd P p b * (q - p)) /\ (forall p b, derivable_pt_lim (fun q => f q b) p (p_fd P p b)) /\
    minimize_saga P x0 (Some step) None None (S max_iter) tol perms = Ok rs /\ er_success rs = true /\
    minimize_svrg P x0 (Some step) None None (S max_iter) tol perms = Ok rv /\ er_success rv = true /\
    exists y, length y = p_d P /\ finite_sum P f y < finite_sum P f (er_x rs) /\ finite_sum P f y < finite_sum P f (er_x rv).
Proof.
  intros step tol max_iter perms Ht Hp.
  set (P := untouched_problem). exists P, (fun p b => (p - b) * (p - b) / 2), [0; 1].
  set (B := mkB (K:=RN) [0;1;2]%nat [0]%nat [0;1]%nat [1 / 1]).
  assert (EB : make_blocks P (eye_ptr (p_d P)) = Ok B) by (rcomp; reflexivity).
  set (s1 := mkSaga (K:=RN) [0; 1] [0] [0; 0] [0; 0]).
  assert (E0 : saga_init P [0;1] = s1) by reflexivity.
  assert (Es : saga_epoch P B no_prox step [0%nat] s1 = Ok s1).
  { rcomp. repeat f_equal; field. }
  assert (Ef : full_grad P [0;1] = Ok [0; 0]).
  { rcomp. repeat f_equal; field. }
  assert (Ev : svrg_epoch P B no_prox step [0;1] [0;0] [0%nat] ([0;1], [0;0]) = Ok ([0;1], [0;0])).
  { rcomp. repeat f_equal; field. }
  exists (mkER (K:=RN) [0;1] true 0 [s1; s1]), (mkER (K:=RN) [0;1] true 0 [([0;1],[0;0]); ([0;1],[0;0])]).
  split; [exact untouched_wf|].
  split. { intros i Hi. cbn in Hi. destruct i; [|lia]. cbn. repeat constructor. intros []. }
  split; [reflexivity|]. split; [cbn; lra|].
  split. { intros p q b. cbn. pose proof (Rle_0_sqr (q - p)). unfold Rsqr in *. nra. }
  split. { intros p b. cbn. intros eps He. assert (Hd : 0 < eps) by exact He. exists (mkposreal eps Hd). intros h Hh Hlt. cbn in Hlt.
    replace (((p + h - b) * (p + h - b) / 2 - (p - b) * (p - b) / 2) / h - (p - b)) with (h / 2) by (field; exact Hh).
    unfold Rdiv. rewrite Rabs_mult, (Rabs_right (/ 2)) by lra. pose proof (Rabs_pos h). nra. }
  split. { unfold minimize_saga. rewrite EB. cbn [bind]. rewrite E0. cbn [saga_loop]. rewrite Hp, Es. cbn [bind].
    change (sa_x s1) with ([0;1] : list R). pose proof (R0lt tol Ht) as Hl. rewrite Hl. reflexivity. }
  split; [reflexivity|].
  split. { unfold minimize_svrg. rewrite EB. cbn [bind]. change (vzeros (K:=RN) (p_d P)) with ([0;0] : list R). cbn [svrg_loop]. rewrite Ef. cbn [bind].
    rewrite Hp. match goal with |- bind ?e _ = _ => change e with (svrg_epoch P B no_prox step [0;1] [0;0] [0%nat] ([0;1], [0;0])) end.
    set (q := svrg_epoch P B no_prox step _ _ _ _) in *. rewrite Ev. cbn [bind].
    pose proof (R0lt tol Ht) as Hl. rewrite Hl. reflexivity. }
  split; [reflexivity|]. exists [0; 0]. split; [reflexivity|]. cbn [er_x].
  unfold finite_sum, adot, ent. split; rcomp; lra.
Qed.

(** ** C60: one block {0,1}, samples (1,0) and (0,1): the scratch entry left by sample 1 is added to the
    direction of sample 0 *)
Definition stale_problem : problem RN := mkP (K:=RN) [1; 1] [0; 1]%nat [0; 1; 2]%nat 2 2 [0; 0] (fun p b => p - b) 0.
Lemma main_C60_svrg_unbiased_refuted :
  exists (P : problem RN) (ptr : list nat) (B : blocks RN) (snap gavg x tmp x1 tmp1 x2 tmp2 : list R),
    problem_wf P /\ canonical P /\ partitions ptr (p_d P) /\ make_blocks P ptr = Ok B /\ length snap = p_d P /\
    p_n P = 2%nat /\ p_alpha P = 0 /\ touched P ptr 1 /\
    full_grad P snap = Ok gavg /\ svrg_epoch P B no_prox 1 snap gavg [0; 1]%nat (snap, zeros (p_d P)) = Ok (x, tmp) /\
    svrg_sample P B no_prox 1 snap gavg 0 (x, tmp) = Ok (x1, tmp1) /\ svrg_sample P B no_prox 1 snap gavg 1 (x, tmp) = Ok (x2, tmp2) /\
    / 2 * ((nth 1 x 0 - nth 1 x1 0) + (nth 1 x 0 - nth 1 x2 0)) = 0 /\
    / INR (p_n P) * Rsum (map (fun i => p_fd P (adot P i x) (nth i (p_b P) 0) * ent P i 1) (seq 0 (p_n P))) = / 4.
Proof.
  exists stale_problem, [0; 2]%nat. do 9 eexists.
  split. { unfold problem_wf, csr_wf. cbn [stale_problem p_n p_d p_indices p_indptr p_data p_b]. wf_solve. }
  split. { intros i Hi. cbn in Hi. destruct i as [|[|i]]; [| |lia]; cbn; repeat constructor; intros []. }
  split. { unfold partitions. cbn [length]. split; [reflexivity|]. split; [lia|]. split; [reflexivity|]. intros h Hh. destruct h; [cbn; lia|lia]. }
  split; [rcomp; reflexivity|]. split; [instantiate (1 := [1; 1]); reflexivity|]. split; [reflexivity|]. split; [reflexivity|].
  split. { exists 0%nat. split; [cbn; lia|]. exists 0%nat, 0%nat. cbn. auto. }
  split; [rcomp; reflexivity|]. split; [rcomp; reflexivity|]. split; [rcomp; reflexivity|]. split; [rcomp; reflexivity|].
  split; [cbn [nth]; lra|]. unfold adot, ent. cbn [stale_problem p_n p_d p_data p_indices p_indptr p_fd p_b seq map Rsum nth]. rcomp. lra.
Qed.

(** ** C62: prox_1 with the block {0,1}, prox_2 separable, one sample storing feature 0 only: the weights
    of prox_2 have length 1 and are read at 1 *)
Definition short_problem : problem QN := mkP (K:=QN) [1%Q] [0]%nat [0; 1]%nat 1 2 [0%Q] (fun p b => (p - b)%Q) 0%Q.
Lemma main_C62_vrtos_bounds_refuted :
  problem_wf short_problem /\ canonical short_problem /\ partitions [0; 2]%nat (p_d short_problem) /\
  forall (max_iter : nat) (tol : Q) (perms : nat -> list nat),
  minimize_vrtos short_problem [1%Q; 1%Q] (1#2)%Q None None (Some [0; 2]%nat) None max_iter tol perms = Err IndexError.
Proof.
  split. { unfold problem_wf, csr_wf. cbn [short_problem p_n p_d p_indices p_indptr p_data p_b]. wf_solve. }
  split. { intros i Hi. cbn in Hi. destruct i; [|lia]. cbn. repeat constructor. intros []. }
  split. { unfold partitions. cbn [length]. split; [reflexivity|]. split; [lia|]. split; [reflexivity|]. intros h Hh. destruct h; [cbn; lia|lia]. }
  intros max_iter tol perms. reflexivity.
Qed.

(** ** C63 *)
Lemma vr_loop_trace {K : Num} (P : problem K) B1 B2 prox1 prox2 step perms k : forall it s log r,
  vr_loop P B1 B2 prox1 prox2 step perms k it s log = Ok r ->
  vs_success r = false /\ S (vs_nit r) = (it + k)%nat /\
  exists s', hd_error (vs_log r) = Some s' /\ vs_x r = vr_z s' /\ vs_x0 r = vr_x1 s' /\
    vs_cert r = nadd K (vnorm (vsub (vr_x1 s') (vr_z s'))) (vnorm (vsub (vr_x2 s') (vr_z s'))).
Proof.
  induction k as [|k IH]; intros it s log r E; cbn [vr_loop] in E; [discriminate|]. apply bind_ok in E as (s' & Es & E). destruct k as [|k].
  - injection E as <-. cbn. split; [reflexivity|]. split; [lia|]. exists s'. auto.
  - apply IH in E as (A & A2 & A3). split; [exact A|]. split; [lia|exact A3].
Qed.
(** a run never reports success, always uses all its iterations, and does not depend on tol *)
Lemma main_C63_vrtos_never_succeeds_refuted : forall (K : Num) (P : problem K) (x0 : vec K) (step : K) (prox1 prox2 : option (sprox K)) (ptr1 ptr2 : option (list nat))
  (max_iter : nat) (tol : K) (perms : nat -> list nat) (r : vr_result K),
  minimize_vrtos P x0 step prox1 prox2 ptr1 ptr2 max_iter tol perms = Ok r ->
  vs_success r = false /\ S (vs_nit r) = max_iter /\
  forall tol', minimize_vrtos P x0 step prox1 prox2 ptr1 ptr2 max_iter tol' perms = Ok r.
Proof.
  intros K P x0 step prox1 prox2 ptr1 ptr2 max_iter tol perms r E. split; [|split].
  3: intros tol'; exact E.
  all: unfold minimize_vrtos in E; destruct (negb _); [discriminate|]; destruct (nltb K step n0); [discriminate|];
    apply bind_ok in E as (B1 & _ & E); apply bind_ok in E as (B2 & _ & E); apply bind_ok in E as (s & _ & E); apply vr_loop_trace in E as (A & A2 & _).
  - exact A.
  - exact A2.
Qed.
Lemma main_C63_vrtos_certificate_partial : forall (K : Num) (P : problem K) (x0 : vec K) (step : K) (prox1 prox2 : option (sprox K)) (ptr1 ptr2 : option (list nat))
  (max_iter : nat) (tol : K) (perms : nat -> list nat) (r : vr_result K),
  minimize_vrtos P x0 step prox1 prox2 ptr1 ptr2 max_iter tol perms = Ok r ->
  exists s, hd_error (vs_log r) = Some s /\ vs_x r = vr_z s /\ vs_x0 r = vr_x1 s /\
    vs_cert r = nadd K (vnorm (vsub (vr_x1 s) (vr_z s))) (vnorm (vsub (vr_x2 s) (vr_z s))).
Proof.
  intros K P x0 step prox1 prox2 ptr1 ptr2 max_iter tol perms r E.
  unfold minimize_vrtos in E; destruct (negb _); [discriminate|]; destruct (nltb K step n0); [discriminate|].
  apply bind_ok in E as (B1 & _ & E); apply bind_ok in E as (B2 & _ & E); apply bind_ok in E as (s & _ & E); apply vr_loop_trace in E as (_ & _ & A). exact A.
Qed.
(** one sample, one feature, f(p) = p^2/2: started at 1, the caller's array holds another value on return; started at the
    minimizer 0 the certificate is 0 and the run does not stop *)
Local Notation zero := (n0 : carrier F64).
Local Notation one := (n1 : carrier F64).
Local Notation half := (nlit (K:=F64) 1 2).
Definition one_problem : problem F64 := mkP (K:=F64) [one] [0]%nat [0; 1]%nat 1 1 [zero] (fun p b => nsub F64 p b) zero.
Lemma main_C63_vrtos_run_refuted :
  problem_wf one_problem /\
  (exists r : vr_result F64, minimize_vrtos one_problem [one] half None None None None 1 half (fun _ => [0%nat]) = Ok r /\ neqb F64 (nth 0 (vs_x0 r) zero) one = false) /\
  (exists r : vr_result F64, minimize_vrtos one_problem [zero] half None None None None 3 half (fun _ => [0%nat]) = Ok r /\
     vs_nit r = 2%nat /\ vs_success r = false /\
     Forall (fun s => nltb F64 (nadd F64 (vnorm (vsub (vr_x1 s) (vr_z s))) (vnorm (vsub (vr_x2 s) (vr_z s)))) half = true) (vs_log r)).
Proof.
  split. { unfold problem_wf, csr_wf. cbn [one_problem p_n p_d p_indices p_indptr p_data p_b]. wf_solve. }
  split.
  - match goal with |- exists r, ?e = Ok r /\ _ => destruct (run_check e (fun r => negb (neqb F64 (nth 0 (vs_x0 r) zero) one))) as (r & E & H) end; [vm_compute; reflexivity|].
    exists r. split; [exact E|]. apply negb_true_iff. exact H.
  - match goal with |- exists r, ?e = Ok r /\ _ => destruct (run_check e (fun r => Nat.eqb (vs_nit r) 2 && (negb (vs_success r) &&
      forallb (fun s => nltb F64 (nadd F64 (vnorm (vsub (vr_x1 s) (vr_z s))) (vnorm (vsub (vr_x2 s) (vr_z s)))) half) (vs_log r)))) as (r & E & H) end; [vm_compute; reflexivity|].
    exists r. split; [exact E|]. apply andb_prop in H as (H1 & H). apply andb_prop in H as (H2 & H3).
    split; [apply Nat.eqb_eq, H1|]. split; [apply negb_true_iff, H2|]. apply Forall_forall. apply forallb_forall. exact H3.
Qed.
