(** * FloatSum: rounding errors of the CSR products in float64 *)
From Coq Require Import ZArith Reals Lra Lia Bool List.
From Coq Require Import Floats.SpecFloat.
From Verif Require Import Num Vec Spec SpecSparse RVec ModelUtilsArr UtilsMain FloatBase.
Import ListNotations.
Local Open Scope R_scope.

(** growth of the relative error after m+1 roundings *)
Definition gam (m : nat) : R := (1 + uro) ^ (S m) - 1.
Definition und (m : nat) : R := INR m * (1 + uro) ^ m * eta.

Lemma pow_ge1 m : 1 <= (1 + uro) ^ m.
Proof. apply pow_R1_Rle. pose proof uro_pos. lra. Qed.
Lemma gam_pos m : 0 <= gam m.
Proof. unfold gam. pose proof (pow_ge1 (S m)). lra. Qed.
Lemma gam_S m : gam (S m) = (1 + uro) * gam m + uro.
Proof. unfold gam. rewrite <- (tech_pow_Rmult _ (S m)). ring. Qed.
Lemma und_S m : (1 + uro) * (und m + eta) <= und (S m).
Proof.
  unfold und. rewrite S_INR, <- tech_pow_Rmult. pose proof (pow_ge1 m). pose proof uro_pos. pose proof eta_pos.
  assert ((1 + uro) * eta <= (1 + uro) * (1 + uro) ^ m * eta).
  { apply Rmult_le_compat_r; [lra|]. rewrite <- (Rmult_1_r (1 + uro)) at 1. apply Rmult_le_compat_l; lra. }
  replace ((INR m + 1) * ((1 + uro) * (1 + uro) ^ m) * eta)
    with ((1 + uro) * (INR m * (1 + uro) ^ m * eta) + (1 + uro) * (1 + uro) ^ m * eta) by ring.
  lra.
Qed.

Definition facc (K : Num) (l : list (K * K)) (a : K) : K :=
  fold_left (fun a pq => nadd K a (nmul K (fst pq) (snd pq))) l a.
Arguments facc {K}.

(** one step: add a product *)
Lemma step_err (a p q : F64) S0 A m : datum a -> datum p -> datum q ->
  fin (nadd F64 a (nmul F64 p q)) ->
  Rabs S0 <= A ->
  fin a /\ (Rabs (fv a - S0) <= gam m * A + und m ->
  Rabs (fv (nadd F64 a (nmul F64 p q)) - (S0 + fv p * fv q))
   <= gam (S m) * (A + Rabs (fv p * fv q)) + und (S m)).
Proof.
  intros Da Dp Dq Hf HA.
  destruct (add_val _ _ Da (mul_datum _ _ Dp Dq) Hf) as (Fa & Fm & Ev).
  destruct (mul_val _ _ Dp Dq Fm) as (Fp & Fq & Em).
  split; [exact Fa|]. intros He. rewrite Ev.
  pose proof (rnd_add_err _ _ (fin_repr _ Fa) (fin_repr _ Fm)) as H1.
  pose proof (rnd_err (fv p * fv q)) as H2. rewrite <- Em in H2.
  set (pq := fv p * fv q) in *. set (c := fv (nmul F64 p q)) in *. set (b := fv a) in *.
  pose proof uro_pos as Hu. pose proof (gam_pos m) as Hg. pose proof (Rabs_pos pq) as Hpq.
  assert (H3 : Rabs (b + c - (S0 + pq)) <= gam m * A + und m + uro * Rabs pq + eta).
  { replace (b + c - (S0 + pq)) with ((b - S0) + (c - pq)) by ring.
    eapply Rle_trans; [apply Rabs_triang|]. lra. }
  assert (H4 : Rabs (b + c) <= A + Rabs pq + (gam m * A + und m + uro * Rabs pq + eta)).
  { replace (b + c) with (S0 + pq + (b + c - (S0 + pq))) by ring.
    eapply Rle_trans; [apply Rabs_triang|].
    pose proof (Rabs_triang S0 pq). lra. }
  replace (rnd (b + c) - (S0 + pq)) with ((rnd (b + c) - (b + c)) + (b + c - (S0 + pq))) by ring.
  eapply Rle_trans; [apply Rabs_triang|].
  apply Rle_trans with ((1 + uro) * (gam m * A + und m + uro * Rabs pq + eta) + uro * (A + Rabs pq)).
  { assert (uro * Rabs (b + c) <= uro * (A + Rabs pq + (gam m * A + und m + uro * Rabs pq + eta)))
      by (apply Rmult_le_compat_l; lra). lra. }
  rewrite gam_S. pose proof (und_S m) as Hn.
  assert (G0 : uro * Rabs pq <= gam m * Rabs pq).
  { apply Rmult_le_compat_r; [exact Hpq|]. unfold gam. pose proof (pow_ge1 m).
    rewrite <- tech_pow_Rmult.
    assert ((1 + uro) * 1 <= (1 + uro) * (1 + uro) ^ m) by (apply Rmult_le_compat_l; lra). lra. }
  assert (G1 : (1 + uro) * (uro * Rabs pq) <= (1 + uro) * (gam m * Rabs pq))
    by (apply Rmult_le_compat_l; lra).
  lra.
Qed.

Lemma facc_err : forall (l : list (F64 * F64)) (a : F64),
  datum a -> Forall (fun pq => datum (fst pq) /\ datum (snd pq)) l -> fin (facc l a) ->
  fin a /\
  forall S0 A m, Rabs S0 <= A -> Rabs (fv a - S0) <= gam m * A + und m ->
  Rabs (fv (facc l a) - (S0 + Rsum (map (fun pq => fv (fst pq) * fv (snd pq)) l)))
  <= gam (m + length l) * (A + Rsum (map (fun pq => Rabs (fv (fst pq) * fv (snd pq))) l)) + und (m + length l).
Proof.
  induction l as [|[p q] l IH]; intros a Da Hl Hf.
  - split; [exact Hf|]. intros S0 A m HA He. cbn [facc fold_left map Rsum length].
    rewrite Nat.add_0_r, !Rplus_0_r. exact He.
  - pose proof (Forall_inv Hl) as [Dp Dq]. cbn [fst snd] in Dp, Dq.
    pose proof (Forall_inv_tail Hl) as Hl'.
    change (facc ((p, q) :: l) a) with (facc l (nadd F64 a (nmul F64 p q))) in *.
    destruct (IH _ (add_datum _ _ Da (mul_datum _ _ Dp Dq)) Hl' Hf) as [F1 H1].
    split.
    + destruct (step_err a p q 0 0 0 Da Dp Dq F1) as [Fa _]; [rewrite Rabs_R0; lra|exact Fa].
    + intros S0 A m HA He. destruct (step_err a p q S0 A m Da Dp Dq F1 HA) as [_ H2].
      specialize (H1 (S0 + fv p * fv q) (A + Rabs (fv p * fv q)) (S m)).
      cbn [map Rsum fst snd length]. rewrite Nat.add_succ_r. rewrite <- !Rplus_assoc.
      apply H1; [|apply H2, He]. pose proof (Rabs_triang S0 (fv p * fv q)). lra.
Qed.

Lemma facc_err0 (l : list (F64 * F64)) :
  Forall (fun pq => datum (fst pq) /\ datum (snd pq)) l -> fin (facc l n0) ->
  Rabs (fv (facc l n0) - Rsum (map (fun pq => fv (fst pq) * fv (snd pq)) l))
  <= gam (length l) * Rsum (map (fun pq => Rabs (fv (fst pq) * fv (snd pq))) l) + und (length l).
Proof.
  intros Hl Hf. destruct (facc_err l n0 (fin_datum _ fin_0) Hl Hf) as [_ H].
  specialize (H 0 0 O). rewrite !Rplus_0_l, Nat.add_0_l in H. apply H.
  - rewrite Rabs_R0. lra.
  - rewrite fv_0, Rminus_0_r, Rabs_R0. unfold und. simpl INR. lra.
Qed.

Lemma datum_nth (l : list F64) i : Forall datum l -> datum (nth i l n0).
Proof.
  intros H. destruct (Nat.lt_ge_cases i (length l)) as [Hi|Hi].
  - rewrite Forall_forall in H. apply H, nth_In, Hi.
  - rewrite nth_overflow by exact Hi. reflexivity.
Qed.
Lemma fv_nth (l : list F64) i : fv (nth i l n0) = nth i (map fv l) 0.
Proof. rewrite <- fv_0. symmetry. apply map_nth. Qed.

(** the loops of the two products are such accumulations *)
Lemma row_acc_facc {K : Num} (data : vec K) indices (x : vec K) : forall js a,
  row_acc data indices x js a = facc (map (fun j => (nth (nth j indices 0%nat) x n0, nth j data n0)) js) a.
Proof. induction js as [|j js IH]; intros a; [reflexivity|]. cbn [map]. unfold row_acc, facc in *. cbn [fold_left fst snd]. apply IH. Qed.
Lemma facc_app {K : Num} (l1 l2 : list (K * K)) a : facc (l1 ++ l2) a = facc l2 (facc l1 a).
Proof. apply fold_left_app. Qed.
Definition col_terms {K : Num} (data : vec K) (indices : list nat) (xk : K) c js : list (K * K) :=
  map (fun j => (xk, nth j data n0)) (filter (fun j => Nat.eqb (nth j indices 0%nat) c) js).
Lemma col_acc_facc {K : Num} (data : vec K) indices (xk : K) c : forall js a,
  col_acc data indices xk c js a = facc (col_terms data indices xk c js) a.
Proof.
  unfold col_terms. induction js as [|j js IH]; intros a; [reflexivity|]. unfold col_acc in *. cbn [fold_left filter].
  rewrite IH. destruct (Nat.eqb (nth j indices 0%nat) c); reflexivity.
Qed.
Definition vm_terms {K : Num} (data : vec K) (indptr indices : list nat) (x : vec K) c (l : list (nat * nat)) : list (K * K) :=
  flat_map (fun ki => col_terms data indices (nth (fst ki) x n0) c (row_js indptr (snd ki))) l.
Lemma vm_acc_facc {K : Num} (data : vec K) indptr indices (x : vec K) c : forall l a,
  vm_acc data indptr indices x c l a = facc (vm_terms data indptr indices x c l) a.
Proof.
  unfold vm_terms. induction l as [|ki l IH]; intros a; [reflexivity|]. unfold vm_acc in *. cbn [fold_left flat_map].
  rewrite facc_app, IH, col_acc_facc. reflexivity.
Qed.

(** absolute values of a float array *)
Definition fabs (l : list F64) : list R := map (fun a => Rabs (fv a)) l.
Lemma fabs_nth l i : nth i (fabs l) 0 = Rabs (fv (nth i l n0)).
Proof. unfold fabs. rewrite <- (map_nth (fun a => Rabs (fv a)) l n0 i). rewrite fv_0, Rabs_R0. reflexivity. Qed.

(** Bound of the forward error of an [m]-term product: 53-bit roundings, then underflow. *)
Definition csr_err (m : nat) (absval : R) : R :=
  ((1 + / 2 ^ 53) ^ (S m) - 1) * absval + INR m * (1 + / 2 ^ 53) ^ m * powerRZ 2 (-1075).
Lemma uro_pow : uro = / 2 ^ 53.
Proof. rewrite uro_val. f_equal. rewrite (pow_IZR 2 53). reflexivity. Qed.
Lemma eta_pow : eta = powerRZ 2 (-1075).
Proof. unfold eta. rewrite Raux.bpow_powerRZ. reflexivity. Qed.
Lemma csr_err_eq m A : csr_err m A = gam m * A + und m.
Proof. unfold csr_err, gam, und. rewrite <- uro_pow, <- eta_pow. reflexivity. Qed.

Lemma terms_sum (l : list nat) (p q : nat -> F64) :
  Rsum (map (fun pq => fv (fst pq) * fv (snd pq)) (map (fun j => (p j, q j)) l))
  = Rsum (map (fun j => fv (p j) * fv (q j)) l) /\
  Rsum (map (fun pq => Rabs (fv (fst pq) * fv (snd pq))) (map (fun j => (p j, q j)) l))
  = Rsum (map (fun j => Rabs (fv (p j)) * Rabs (fv (q j))) l).
Proof.
  rewrite !map_map. split; [reflexivity|]. f_equal. apply map_ext. intros j. cbn [fst snd]. apply Rabs_mult.
Qed.

Lemma wf_map (data : list F64) (g : F64 -> R) indptr indices d idx :
  Forall (csr_row_wf (length data) indptr indices d) idx ->
  Forall (csr_row_wf (length (map g data)) indptr indices d) idx.
Proof. intros H. rewrite map_length. exact H. Qed.

(** Forward error of the CSR matrix-vector product: the float64 run against the exact product. *)
Lemma main_C113_matvec : forall (data : list F64) (indptr indices : list nat) (x : list F64) (idx : list nat),
  Forall datum data -> Forall datum x ->
  Forall (csr_row_wf (length data) indptr indices (length x)) idx ->
  exists r, fast_csr_mv (K:=F64) data indptr indices x idx = Ok r /\ length r = length idx /\
    forall k, (k < length idx)%nat -> fin (nth k r n0) ->
      let i := nth k idx 0%nat in
      Rabs (fv (nth k r n0)
            - Rsum (map (fun c => csr_entry (map fv data) indptr indices i c * fv (nth c x n0)) (seq 0 (length x))))
      <= csr_err (nth (S i) indptr 0%nat - nth i indptr 0%nat)
           (Rsum (map (fun c => csr_entry (fabs data) indptr indices i c * Rabs (fv (nth c x n0))) (seq 0 (length x)))).
Proof.
  intros data indptr indices x idx Dd Dx Hw.
  eexists. split; [exact (fast_csr_mv_value (K:=F64) data indptr indices x idx Hw)|].
  split; [apply map_length|]. intros k Hk.
  rewrite (nth_indep _ _ (row_acc (K:=F64) data indices x (row_js indptr 0%nat) n0)) by (rewrite map_length; exact Hk).
  rewrite (map_nth (fun r => row_acc (K:=F64) data indices x (row_js indptr r) n0)).
  set (i := nth k idx 0%nat). rewrite row_acc_facc. intros Hf i'. subst i'.
  assert (Hr : csr_row_wf (length data) indptr indices (length x) i).
  { rewrite Forall_forall in Hw. apply Hw, nth_In, Hk. }
  assert (Hb : forall j, In j (row_js indptr i) -> (nth j indices 0 < length x)%nat).
  { intros j Hj. apply (row_js_bound (K:=F64) data indptr indices _ _ _ Hr Hj). }
  rewrite csr_err_eq.
  eapply Rle_trans; [right|eapply Rle_trans; [apply facc_err0; [|exact Hf]|right]].
  - f_equal. f_equal.
    rewrite (proj1 (terms_sum _ (fun j => nth (nth j indices 0%nat) x n0) (fun j => nth j data n0))).
    transitivity (Rsum (map (fun j => nth (nth j indices 0%nat) (map fv x) 0 * nth j (map fv data) 0) (row_js indptr i))).
    2: f_equal; apply map_ext; intros j; rewrite <- !fv_nth; reflexivity.
    rewrite <- (entry_dot (map fv data) indices (map fv x) (row_js indptr i)) by (rewrite map_length; exact Hb).
    rewrite map_length. f_equal. apply map_ext. intros c. rewrite csr_entry_R, fv_nth. reflexivity.
  - rewrite Forall_map. apply Forall_forall. intros j _. cbn [fst snd]. split; apply datum_nth; assumption.
  - rewrite map_length. unfold row_js at 1 3, range. rewrite seq_length. f_equal. f_equal.
    rewrite (proj2 (terms_sum _ (fun j => nth (nth j indices 0%nat) x n0) (fun j => nth j data n0))).
    transitivity (Rsum (map (fun j => nth (nth j indices 0%nat) (fabs x) 0 * nth j (fabs data) 0) (row_js indptr i))).
    { f_equal. apply map_ext. intros j. rewrite !fabs_nth. reflexivity. }
    rewrite <- (entry_dot (fabs data) indices (fabs x) (row_js indptr i)) by (unfold fabs; rewrite map_length; exact Hb).
    unfold fabs at 3. rewrite map_length. f_equal. apply map_ext. intros c. rewrite csr_entry_R, fabs_nth. reflexivity.
Qed.

Lemma vm_terms_sum (data x : list F64) indptr indices c (g : F64 -> R) (Hg : g n0 = 0) : forall l,
  Rsum (map (fun pq => g (fst pq) * g (snd pq)) (vm_terms data indptr indices x c l))
  = Rsum (map (fun ki => g (nth (fst ki) x n0) * csr_entry (map g data) indptr indices (snd ki) c) l).
Proof.
  induction l as [|[k i] l IH]; [reflexivity|].
  cbn [vm_terms flat_map map Rsum fst snd]. fold (vm_terms data indptr indices x c l).
  rewrite map_app, Rsum_app, IH. f_equal. rewrite csr_entry_R. unfold col_terms.
  rewrite map_map. cbn [fst snd]. rewrite Rsum_map_mult. f_equal. unfold row_js.
  induction (range (nth i indptr 0%nat) (nth (S i) indptr 0%nat)) as [|j js IHj]; [reflexivity|].
  cbn [filter map Rsum]. rewrite <- IHj. rewrite <- Hg, map_nth, Hg.
  destruct (Nat.eqb (nth j indices 0%nat) c); cbn [map Rsum]; lra.
Qed.
Lemma vm_terms_length {K : Num} (data x : vec K) indptr indices c : forall l,
  length (vm_terms data indptr indices x c l)
  = length (filter (Nat.eqb c) (flat_map (csr_row indices indptr) (map snd l))).
Proof.
  induction l as [|[k i] l IH]; [reflexivity|].
  cbn [vm_terms flat_map map fst snd]. fold (vm_terms data indptr indices x c l).
  rewrite filter_app, !app_length, IH. f_equal. unfold col_terms, csr_row. rewrite map_length. fold (row_js indptr i).
  induction (row_js indptr i) as [|j js IHj]; [reflexivity|]. cbn [filter map].
  rewrite (Nat.eqb_sym c). destruct (Nat.eqb (nth j indices 0%nat) c); cbn [length]; rewrite IHj; reflexivity.
Qed.
Lemma snd_enumerate {A} (l : list A) : map snd (enumerate l) = l.
Proof.
  unfold enumerate. generalize 0%nat. induction l as [|a l IH]; intros s; [reflexivity|].
  cbn [length seq combine map snd]. f_equal. apply IH.
Qed.

(** Forward error of the CSR vector-matrix product; [m] counts the stored entries of column [c]
    in the selected rows. *)
Lemma main_C113_vecmat : forall (data : list F64) (indptr indices : list nat) (w : list F64) (d : nat) (idx : list nat),
  Forall datum data -> Forall datum w -> length w = length idx ->
  Forall (csr_row_wf (length data) indptr indices d) idx ->
  exists r, fast_csr_vm (K:=F64) w data indptr indices d idx = Ok r /\ length r = d /\
    forall c, (c < d)%nat -> fin (nth c r n0) ->
      Rabs (fv (nth c r n0)
            - Rsum (map (fun k => fv (nth k w n0) * csr_entry (map fv data) indptr indices (nth k idx 0%nat) c) (seq 0 (length idx))))
      <= csr_err (length (filter (Nat.eqb c) (flat_map (csr_row indices indptr) idx)))
           (Rsum (map (fun k => Rabs (fv (nth k w n0)) * csr_entry (fabs data) indptr indices (nth k idx 0%nat) c) (seq 0 (length idx)))).
Proof.
  intros data indptr indices w d idx Dd Dw Hl Hw.
  destruct (fast_csr_vm_value (K:=F64) data indptr indices w d idx Hl Hw) as (r & A & B & C).
  exists r. split; [exact A|]. split; [exact B|]. intros c Hc. rewrite C by exact Hc. rewrite vm_acc_facc.
  intros Hf. rewrite csr_err_eq.
  eapply Rle_trans; [right|eapply Rle_trans; [apply facc_err0; [|exact Hf]|right]].
  - f_equal. f_equal. rewrite (vm_terms_sum data w indptr indices c fv fv_0).
    symmetry. f_equal. exact (map_enumerate (fun k r => fv (nth k w n0) * csr_entry (map fv data) indptr indices r c) idx 0%nat).
  - unfold vm_terms. apply Forall_flat_map. apply Forall_forall. intros ki _. unfold col_terms.
    rewrite Forall_map. apply Forall_forall. intros j _. cbn [fst snd]. split; apply datum_nth; assumption.
  - rewrite vm_terms_length, snd_enumerate. f_equal. f_equal.
    transitivity (Rsum (map (fun pq => Rabs (fv (fst pq)) * Rabs (fv (snd pq))) (vm_terms data indptr indices w c (enumerate idx)))).
    { f_equal. apply map_ext. intros [p q]. apply Rabs_mult. }
    rewrite (vm_terms_sum data w indptr indices c (fun a => Rabs (fv a))); [|rewrite fv_0; apply Rabs_R0].
    f_equal. exact (map_enumerate (fun k r => Rabs (fv (nth k w n0)) * csr_entry (fabs data) indptr indices r c) idx 0%nat).
Qed.
