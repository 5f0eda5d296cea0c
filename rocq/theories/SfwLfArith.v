(** * Arithmetic of the step sizes of variant LF *)
From Coq Require Import Reals Lra Lia.
From Verif Require Import SfwLf.
Local Open Scope R_scope.

Lemma div_le (a b c : R) : 0 < b -> a <= c * b -> a / b <= c.
Proof. intros Hb H. apply Rmult_le_reg_r with b; [exact Hb|]. unfold Rdiv. rewrite Rmult_assoc, Rinv_l by lra. lra. Qed.
Lemma le_div (a b c : R) : 0 < b -> c * b <= a -> c <= a / b.
Proof. intros Hb H. apply Rmult_le_reg_r with b; [exact Hb|]. unfold Rdiv. rewrite Rmult_assoc, Rinv_l by lra. lra. Qed.
Lemma alf_delta m t : 1 <= m -> 0 <= t -> let p := 2 * m + t + 1 in
  alf m t - 2 / p = 4 * m * (2 * m - 1) / ((t + 1) * (4 * m + t) * p).
Proof. intros Hm Ht p. unfold alf, p. field. repeat split; lra. Qed.
Lemma alf_lower m t : 1 <= m -> 0 <= t -> 2 / (2 * m + t + 1) <= alf m t.
Proof.
  intros Hm Ht. pose proof (alf_delta m t Hm Ht) as H. cbn zeta in H.
  assert (0 <= 4 * m * (2 * m - 1) / ((t + 1) * (4 * m + t) * (2 * m + t + 1))); [|lra].
  apply Rmult_le_pos; [apply Rmult_le_pos; lra|]. left. apply Rinv_0_lt_compat. repeat apply Rmult_lt_0_compat; lra.
Qed.
Lemma alf_upper m t : 1 <= m -> 0 <= t -> alf m t * (t + 1) <= 2.
Proof.
  intros Hm Ht. unfold alf. replace (2 * (2 * m + t) / ((t + 1) * (4 * m + t)) * (t + 1)) with (2 * (2 * m + t) / (4 * m + t)) by (field; lra).
  apply div_le; lra.
Qed.
(** alpha <= 2 sqrt (m / p) *)
Lemma alf_sq m t : 1 <= m -> 0 <= t -> 0 <= alf m t <= 1 -> alf m t * alf m t * (2 * m + t + 1) <= 4 * m.
Proof.
  intros Hm Ht Ha. pose proof (alf_upper m t Hm Ht) as H. set (a := alf m t) in *. clearbody a.
  pose proof (Rmult_le_compat_l a _ _ (proj1 Ha) H) as H1.
  assert (H2 : a * a <= 1). { replace 1 with (1 * 1) by ring. apply Rmult_le_compat; lra. }
  pose proof (Rmult_le_compat_r (2 * m) _ _ ltac:(lra) H2). lra.
Qed.
(** far enough in the run the terms added to the squared error are of order m / p^2 *)
Lemma small_delta m t : 1 <= m -> 0 <= t -> let p := 2 * m + t + 1 in 24 * m <= p -> 0 <= alf m t - 2 / p <= / 2 * m / (p * p).
Proof.
  intros Hm Ht p Hp. split; [pose proof (alf_lower m t Hm Ht); fold p in H; lra|]. unfold p at 1. rewrite (alf_delta m t Hm Ht). fold p.
  assert (Hpp : 0 < p) by lra.
  assert (H1 : 11 / 12 * p <= t + 1) by (unfold p in *; lra). assert (H2 : p <= 4 * m + t) by (unfold p; lra).
  assert (H3 : 11 / 12 * p * p <= (t + 1) * (4 * m + t)) by (apply Rmult_le_compat; lra).
  assert (H4 : 4 * m * (2 * m - 1) <= / 3 * m * p).
  { assert (2 * m - 1 <= / 12 * p) by lra. pose proof (Rmult_le_compat_l (4 * m) _ _ ltac:(lra) H). lra. }
  apply div_le; [repeat apply Rmult_lt_0_compat; lra|].
  replace (/ 2 * m / (p * p) * ((t + 1) * (4 * m + t) * p)) with (/ 2 * m * ((t + 1) * (4 * m + t)) / p) by (field; lra).
  apply le_div; [lra|]. pose proof (Rmult_le_compat_l (/ 2 * m) _ _ ltac:(lra) H3) as H5.
  pose proof (Rmult_le_compat_r p _ _ ltac:(lra) H4). assert (0 <= m * p * p) by (repeat apply Rmult_le_pos; lra). lra.
Qed.
Definition kapL (m t : R) : R := let a := alf m t in let e := elf m t in / m * e - a - / m * e * (e - a).
Definition forceL (m t : R) : R := let a := alf m t in let e := elf m t in 2 * Rabs (kapL m t) + ((1 - / m) * (a * a) + / m * ((e - a) * (e - a))).
Lemma force_bound m t : 1 <= m -> 0 <= t -> let p := 2 * m + t + 1 in 24 * m <= p -> forceL m t <= 25 * m / (p * p).
Proof.
  intros Hm Ht p Hp. destruct (small_delta m t Hm Ht Hp) as (D0 & D1). fold p in D0, D1. assert (Hpp : 24 <= p) by lra.
  unfold forceL, kapL. set (a := alf m t) in *. set (e := elf m t) in *.
  assert (Ee : e = 2 * m / p) by reflexivity. clearbody a e. clearbody p.
  set (q := / (p * p)). assert (Hq : 0 < q) by (apply Rinv_0_lt_compat, Rmult_lt_0_compat; lra).
  set (i := / p) in *. assert (Hi : 0 < i) by (apply Rinv_0_lt_compat; lra). assert (Eq : q = i * i) by (unfold q, i; field; lra).
  assert (Hmi : m * i <= / 24). { unfold i. apply (div_le m p (/ 24)); lra. }
  assert (D1' : a <= 2 * i + / 2 * (m * i * i)). { unfold Rdiv in D1. fold q i in D1. rewrite Eq in D1. lra. }
  assert (D0' : 2 * i <= a) by (unfold Rdiv in D0; fold i in D0; lra).
  assert (Eei : e = 2 * (m * i)) by (rewrite Ee; unfold i; field; lra). clear Ee D0 D1.
  assert (Hi2 : m * i * i <= / 24 * i) by (apply Rmult_le_compat_r; lra).
  assert (Ha : 0 <= a <= 9 / 4 * i) by lra. assert (Him : i <= m * i) by (rewrite <- (Rmult_1_l i) at 1; apply Rmult_le_compat_r; lra).
  assert (Hx : Rabs (e - a) <= 9 / 4 * (m * i)) by (apply Rabs_le; lra).
  assert (Eme : / m * e = 2 * i) by (rewrite Eei; field; lra). rewrite Eme.
  assert (Hk : Rabs (2 * i - a - 2 * i * (e - a)) <= 5 * (m * i * i)).
  { replace (2 * i - a - 2 * i * (e - a)) with (- (a - 2 * i) + - (2 * i * (e - a))) by ring.
    eapply Rle_trans; [apply Rabs_triang|]. rewrite !Rabs_Ropp, Rabs_mult, (Rabs_pos_eq (a - 2 * i)), (Rabs_pos_eq (2 * i)) by lra.
    pose proof (Rmult_le_compat_l (2 * i) _ _ ltac:(lra) Hx). lra. }
  assert (Hm1 : 0 < / m <= 1). { split; [apply Rinv_0_lt_compat; lra|]. rewrite <- Rinv_1. apply Rinv_le_contravar; lra. }
  assert (Haa : a * a <= 6 * (m * i * i)).
  { assert (a * a <= (9 / 4 * i) * (9 / 4 * i)) by (apply Rmult_le_compat; lra).
    pose proof (Rmult_le_compat_r i _ _ ltac:(lra) Him). lra. }
  assert (H1 : (1 - / m) * (a * a) <= 6 * (m * i * i)).
  { pose proof (Rmult_le_pos a a ltac:(lra) ltac:(lra)) as Q. assert (0 <= / m * (a * a)) by (apply Rmult_le_pos; lra). lra. }
  assert (H2 : / m * ((e - a) * (e - a)) <= 6 * (m * i * i)).
  { assert (Q : (e - a) * (e - a) <= (9 / 4 * (m * i)) * (9 / 4 * (m * i))).
    { apply Rabs_le_inv in Hx || idtac. apply Rsqr_le_abs_1. rewrite (Rabs_pos_eq (9 / 4 * (m * i))) by lra. apply Rabs_le. lra. }
    pose proof (Rmult_le_compat_l (/ m) _ _ (Rlt_le _ _ (proj1 Hm1)) Q) as Q2.
    replace (/ m * (9 / 4 * (m * i) * (9 / 4 * (m * i)))) with (81 / 16 * (m * i * i)) in Q2 by (field; lra).
    assert (0 <= m * i * i) by (repeat apply Rmult_le_pos; lra). lra. }
  unfold Rdiv. fold q. rewrite Eq. assert (0 <= m * i * i) by (repeat apply Rmult_le_pos; lra). lra.
Qed.
(** the recursion of the squared error: 25 m / p *)
Lemma sq_rec m t : 1 <= m -> 0 <= t -> let p := 2 * m + t + 1 in 24 * m <= p ->
  (1 - / m * elf m t * (2 - elf m t)) * (25 * m / p) + forceL m t <= 25 * m / (p + 1).
Proof.
  intros Hm Ht p Hp. pose proof (force_bound m t Hm Ht Hp) as HF. fold p in HF. pose proof (elf_range m t Hm Ht) as He.
  assert (Hpp : 24 <= p) by lra.
  assert (E1 : / m * elf m t = 2 / p) by (unfold elf; fold p; field; lra). rewrite E1.
  assert (Hi : 0 < 2 / p) by (apply Rdiv_lt_0_compat; lra).
  assert (H1 : 2 / p <= 2 / p * (2 - elf m t)) by (rewrite <- (Rmult_1_r (2 / p)) at 1; apply Rmult_le_compat_l; lra).
  assert (Hx : 0 <= 25 * m / p) by (left; apply Rdiv_lt_0_compat; lra).
  assert (H2 : (1 - 2 / p * (2 - elf m t)) * (25 * m / p) <= (1 - 2 / p) * (25 * m / p)) by (apply Rmult_le_compat_r; lra).
  assert (H3 : (1 - 2 / p) * (25 * m / p) + 25 * m / (p * p) <= 25 * m / (p + 1)); [|lra].
  apply le_div; [lra|]. apply Rmult_le_reg_r with (p * p); [apply Rmult_lt_0_compat; lra|].
  replace (((1 - 2 / p) * (25 * m / p) + 25 * m / (p * p)) * (p + 1) * (p * p)) with (25 * m * ((p - 1) * (p + 1))) by (field; lra).
  replace (25 * m * (p * p)) with (25 * m * ((p - 1) * (p + 1)) + 25 * m) by ring. lra.
Qed.
Lemma un_rec m t : 1 <= m -> 0 <= t -> (1 - / m) * (m / (m + t)) <= m / (m + (t + 1)).
Proof.
  intros Hm Ht. apply le_div; [lra|]. replace ((1 - / m) * (m / (m + t)) * (m + (t + 1))) with ((m - 1) * (m + (t + 1)) / (m + t)) by (field; lra).
  apply div_le; lra.
Qed.
(** the rate *)
Definition rL (m t : R) : R := sqrt (m / (2 * m + t + 1)).
Lemma rL_sq m t : 1 <= m -> 0 <= t -> rL m t * rL m t = m / (2 * m + t + 1) /\ 0 < rL m t <= 3 / 4.
Proof.
  intros Hm Ht. assert (Hp : 0 < m / (2 * m + t + 1)) by (apply Rdiv_lt_0_compat; lra). unfold rL.
  split; [apply sqrt_sqrt; lra|]. split; [apply sqrt_lt_R0, Hp|].
  rewrite <- (sqrt_square (3 / 4)) by lra. apply sqrt_le_1; try lra. apply div_le; lra.
Qed.
Lemma un_rL m t : 1 <= m -> 0 <= t -> m / (m + t) <= 3 * rL m t.
Proof.
  intros Hm Ht. destruct (rL_sq m t Hm Ht) as (E & H0 & H1).
  assert (H : m / (m + t) <= 3 * (rL m t * rL m t)).
  { rewrite E. apply div_le; [lra|]. replace (3 * (m / (2 * m + t + 1)) * (m + t)) with (3 * m * (m + t) / (2 * m + t + 1)) by (field; lra).
    apply le_div; [lra|]. assert (0 <= m * (m + 2 * t - 1)) by (apply Rmult_le_pos; lra). lra. }
  pose proof (Rmult_le_compat_l (rL m t) _ _ (Rlt_le _ _ H0) H1). lra.
Qed.
Lemma alf_rL m t : 1 <= m -> 0 <= t -> 0 <= alf m t <= 1 -> alf m t <= 2 * rL m t.
Proof.
  intros Hm Ht Ha. destruct (rL_sq m t Hm Ht) as (E & H0 & H1). pose proof (alf_sq m t Hm Ht Ha) as H.
  apply Rsqr_incr_0; [|lra|lra]. unfold Rsqr. replace (2 * rL m t * (2 * rL m t)) with (4 * (rL m t * rL m t)) by ring. rewrite E.
  replace (4 * (m / (2 * m + t + 1))) with (4 * m / (2 * m + t + 1)) by (field; lra). apply le_div; [lra|exact H].
Qed.
Lemma rL_rec m t : 1 <= m -> 0 <= t -> 0 <= alf m t <= 1 -> (1 - alf m t / 2) * rL m t <= rL m (t + 1).
Proof.
  intros Hm Ht Ha. destruct (rL_sq m t Hm Ht) as (E & H0 & _). destruct (rL_sq m (t + 1) Hm ltac:(lra)) as (E' & H0' & _).
  pose proof (alf_lower m t Hm Ht) as Hal. set (p := 2 * m + t + 1) in *. assert (Hp : 3 <= p) by (unfold p; lra).
  assert (Hi : / p <= alf m t / 2) by (unfold Rdiv in *; lra).
  assert (Hip : 0 < / p <= / 3) by (split; [apply Rinv_0_lt_compat; lra|apply Rinv_le_contravar; lra]).
  eapply Rle_trans; [apply Rmult_le_compat_r; [lra|]; apply Rplus_le_compat_l, Ropp_le_contravar, Hi|]. fold (1 - / p).
  apply Rsqr_incr_0; [|apply Rmult_le_pos; lra|lra]. unfold Rsqr.
  replace ((1 - / p) * rL m t * ((1 - / p) * rL m t)) with ((1 - / p) * (1 - / p) * (rL m t * rL m t)) by ring. rewrite E, E'.
  replace (2 * m + (t + 1) + 1) with (p + 1) by (unfold p; ring). apply le_div; [lra|].
  replace ((1 - / p) * (1 - / p) * (m / p) * (p + 1)) with (m * ((p - 1) * (p - 1) * (p + 1)) / (p * p * p)) by (field; lra).
  assert (0 < p * p) by (apply Rmult_lt_0_compat; lra).
  apply div_le; [apply Rmult_lt_0_compat; lra|]. apply Rmult_le_compat_l; [lra|].
  assert (0 <= p * (p - 1)) by (apply Rmult_le_pos; lra). assert (0 <= p * p - 1) by lra. nra.
Qed.
