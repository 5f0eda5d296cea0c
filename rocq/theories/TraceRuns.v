(** * Library routines that meet the specification of SpecTrace.v, and runs of the solvers with them *)
From Coq Require Import Reals List Bool Lra Lia Psatz.
From Verif Require Import Num Vec Spec RVec ConvexFacts SpecTrace TraceFacts ModelTrace ModelTraceSolve TraceMain ModelUtils ModelProxGrad ProxGradFacts ProxGradMain TraceSolve.
Import ListNotations.
Open Scope R_scope.
(** 1 x n matrices *)
Definition row_svd (X : list (list R)) : list (list R) * list R * list (list R) :=
  let r := concat X in
  if Req_EM_T (norm2 r) 0 then ([[]], [], []) else ([[1]], [norm2 r], [smul (/ norm2 r) r]).
Lemma row_svd_ok n x : length x = (1 * n)%nat -> svd_at 1 n row_svd x.
Proof.
  intros Hx X (L1 & FX & EX). unfold row_svd. rewrite EX. destruct (Req_EM_T (norm2 x) 0) as [Z|NZ]; cbn [fst snd].
  - exists 0%nat. assert (Ex : x = zeros n).
    { apply list_ext with (d := 0); [rewrite zeros_length; lia|]. intros i Hi. unfold zeros. rewrite nth_repeat.
      assert (D : dot x x = 0). { pose proof (dot_self_nonneg x) as P. unfold norm2 in Z. apply sqrt_eq_0 in Z; auto. }
      clear -D Hi. revert i Hi. induction x as [|a x IH]; intros i Hi; cbn in Hi; [lia|]. cbn in D. pose proof (dot_self_nonneg x). pose proof (Rle_0_sqr a). unfold Rsqr in *.
      destruct i; cbn; [nra|]. apply IH; lra || lia. }
    repeat split; cbn; auto; try (repeat constructor); try lia.
    all: intros i j Hi Hj; rewrite Ex. unfold zeros; rewrite nth_repeat; reflexivity.
  - exists 1%nat. assert (P : 0 < norm2 x) by (pose proof (norm2_nonneg x); lra).
    assert (E : norm2 x * norm2 x = dot x x) by (unfold norm2; rewrite sqrt_sqrt; [reflexivity|apply dot_self_nonneg]).
    repeat split; cbn; auto; try (repeat constructor); try lia.
    + exact P.
    + intros i j Hi Hj. destruct i, j; try lia. cbn. ring.
    + rewrite smul_length. lia.
    + intros i j Hi Hj. destruct i, j; try lia. cbn. rewrite dot_smul_l, dot_smul_r, <- E. field. lra.
    + intros i j Hi Hj. assert (i = 0%nat) by lia. subst i. cbn. rewrite nth_smul. field. lra.
Qed.
(** 2 x 2 matrices: the leading eigenvector of Z'Z *)
Definition unit2 (p q : R) : list R := let s := sqrt (p * p + q * q) in if Req_EM_T s 0 then [1; 0] else [p / s; q / s].
Lemma unit2_ok p q : exists c d, unit2 p q = [c; d] /\ c * c + d * d = 1 /\ p = sqrt (p * p + q * q) * c /\ q = sqrt (p * p + q * q) * d.
Proof.
  unfold unit2. assert (N : 0 <= p * p + q * q) by nra. pose proof (sqrt_sqrt _ N) as E. pose proof (sqrt_pos (p * p + q * q)) as S.
  destruct (Req_EM_T (sqrt (p * p + q * q)) 0) as [Z|NZ].
  - exists 1, 0. rewrite Z in *. repeat split; nra.
  - exists (p / sqrt (p * p + q * q)), (q / sqrt (p * p + q * q)). set (s := sqrt (p * p + q * q)) in *. repeat split; try (field; auto).
    replace (p / s * (p / s) + q / s * (q / s)) with ((p * p + q * q) / (s * s)) by (field; auto). rewrite E. field. nra.
Qed.
Definition top2 (a b c d : R) : list R :=
  let p := a * a + c * c in let r := b * b + d * d in let q := a * b + c * d in
  let lam := (p + r + sqrt ((p - r) * (p - r) + 4 * (q * q))) / 2 in
  if Req_EM_T q 0 then (if Rle_dec r p then [1; 0] else [0; 1]) else unit2 q (lam - p).
Definition svds22 (X : list (list R)) : list R * list R :=
  let z := concat X in
  let a := nth 0 z 0 in let b := nth 1 z 0 in let c := nth 2 z 0 in let d := nth 3 z 0 in
  let v := top2 a b c d in
  (unit2 (a * nth 0 v 0 + b * nth 1 v 0) (c * nth 0 v 0 + d * nth 1 v 0), v).
Lemma top2_ok a b c d : exists v w, top2 a b c d = [v; w] /\ v * v + w * w = 1 /\
  forall y z, (a * y + b * z) * (a * y + b * z) + (c * y + d * z) * (c * y + d * z) <=
              ((a * v + b * w) * (a * v + b * w) + (c * v + d * w) * (c * v + d * w)) * (y * y + z * z).
Proof.
  unfold top2. set (p := a * a + c * c). set (r := b * b + d * d). set (q := a * b + c * d).
  assert (Q : forall y z, (a * y + b * z) * (a * y + b * z) + (c * y + d * z) * (c * y + d * z) = p * (y * y) + r * (z * z) + 2 * q * (y * z)) by (intros; unfold p, q, r; ring).
  clearbody p q r.
  set (D := (p - r) * (p - r) + 4 * (q * q)). assert (HD : 0 <= D) by (unfold D; pose proof (Rle_0_sqr (p - r)); pose proof (Rle_0_sqr q); unfold Rsqr in *; lra).
  pose proof (sqrt_sqrt D HD) as ES. pose proof (sqrt_pos D) as PS. set (s := sqrt D) in *. set (lam := (p + r + s) / 2).
  destruct (Req_EM_T q 0) as [Z|NZ].
  - destruct (Rle_dec r p) as [H|H].
    + exists 1, 0. split; [reflexivity|split; [ring|]]. intros y z. rewrite !Q, Z. nra.
    + exists 0, 1. split; [reflexivity|split; [ring|]]. intros y z. rewrite !Q, Z. nra.
  - destruct (unit2_ok q (lam - p)) as (v & w & E & N & Ev & Ew). exists v, w. split; [exact E|split; [exact N|]].
    set (t := sqrt (q * q + (lam - p) * (lam - p))) in *.
    (* (lam - p)(lam - r) = q^2 *)
    assert (Ch : (lam - p) * (lam - r) = q * q) by (unfold lam; unfold D in ES; nra).
    assert (Hp : 0 <= lam - p).
    { unfold lam. assert (p - r <= s). { apply Rsqr_incr_0_var; auto. unfold Rsqr. rewrite ES. unfold D. nra. } lra. }
    assert (Hr : 0 <= lam - r).
    { unfold lam. assert (r - p <= s). { apply Rsqr_incr_0_var; auto. unfold Rsqr. rewrite ES. unfold D. nra. } lra. }
    assert (Tn : 0 < t). { unfold t. apply sqrt_lt_R0. nra. }
    (* eigenvector *)
    assert (E1 : p * v + q * w = lam * v). { apply Rmult_eq_reg_l with t; [|lra]. replace (t * (p * v + q * w)) with (p * (t * v) + q * (t * w)) by ring. rewrite <- Ev, <- Ew. replace (t * (lam * v)) with (lam * (t * v)) by ring. rewrite <- Ev. ring. }
    assert (E2 : q * v + r * w = lam * w). { apply Rmult_eq_reg_l with t; [|lra]. replace (t * (q * v + r * w)) with (q * (t * v) + r * (t * w)) by ring. rewrite <- Ev, <- Ew. replace (t * (lam * w)) with (lam * (t * w)) by ring. rewrite <- Ew. lra. }
    intros y z. rewrite !Q. replace (p * (v * v) + r * (w * w) + 2 * q * (v * w)) with (v * (p * v + q * w) + w * (q * v + r * w)) by ring.
    rewrite E1, E2. replace (v * (lam * v) + w * (lam * w)) with (lam * (v * v + w * w)) by ring. rewrite N, Rmult_1_r.
    (* lam I - Z'Z is positive semidefinite *)
    assert (S0 : 0 <= (lam - p) * (y * y) + (lam - r) * (z * z) - 2 * q * (y * z)).
    { destruct (Rle_lt_or_eq_dec 0 (lam - p) Hp) as [Hpp|Hz].
      - apply Rmult_le_reg_l with (lam - p); auto. rewrite Rmult_0_r.
        replace ((lam - p) * ((lam - p) * (y * y) + (lam - r) * (z * z) - 2 * q * (y * z))) with (((lam - p) * y - q * z) * ((lam - p) * y - q * z) + ((lam - p) * (lam - r) - q * q) * (z * z)) by ring.
        rewrite Ch. pose proof (Rle_0_sqr ((lam - p) * y - q * z)) as P. unfold Rsqr in P. lra.
      - exfalso. rewrite <- Hz in Ch. nra. }
    lra.
Qed.
Lemma svds22_ok u : length u = 4%nat -> svds_at 2 2 svds22 u.
Proof.
  intros Hu X (_ & _ & EX). unfold svds22. rewrite EX. destruct u as [|a [|b [|c [|d [|? ?]]]]]; cbn in Hu; try lia. cbn [nth fst snd].
  destruct (top2_ok a b c d) as (v & w & -> & N & B). cbn [nth].
  destruct (unit2_ok (a * v + b * w) (c * v + d * w)) as (e & f & -> & N2 & E1 & E2).
  set (t := sqrt ((a * v + b * w) * (a * v + b * w) + (c * v + d * w) * (c * v + d * w))) in *.
  assert (Tn : 0 <= t) by apply sqrt_pos.
  assert (Tt : t * t = (a * v + b * w) * (a * v + b * w) + (c * v + d * w) * (c * v + d * w)) by (apply sqrt_sqrt; pose proof (Rle_0_sqr (a * v + b * w)); pose proof (Rle_0_sqr (c * v + d * w)); unfold Rsqr in *; lra).
  assert (V : dot [a; b; c; d] (outer [e; f] [v; w]) = t).
  { cbn. replace (a * (e * v) + (b * (e * w) + (c * (f * v) + (d * (f * w) + 0)))) with (e * (a * v + b * w) + f * (c * v + d * w)) by ring.
    rewrite E1, E2. replace (e * (t * e) + f * (t * f)) with (t * (e * e + f * f)) by ring. rewrite N2. ring. }
  split; [reflexivity|split; [reflexivity|]]. split; [unfold norm2; cbn; rewrite Rplus_0_r, N2; apply sqrt_1|].
  split; [unfold norm2; cbn; rewrite Rplus_0_r, N; apply sqrt_1|]. rewrite V.
  split; [reflexivity|]. intros x y Hx Hy. destruct x as [|x1 [|x2 [|? ?]]]; cbn in Hx; try lia. destruct y as [|y1 [|y2 [|? ?]]]; cbn in Hy; try lia.
  replace (dot [a; b; c; d] (outer [x1; x2] [y1; y2])) with (dot [x1; x2] [a * y1 + b * y2; c * y1 + d * y2]) by (cbn; ring).
  pose proof (cauchy_schwarz [x1; x2] [a * y1 + b * y2; c * y1 + d * y2]) as C. pose proof (Rle_abs (dot [x1; x2] [a * y1 + b * y2; c * y1 + d * y2])).
  assert (M : norm2 [a * y1 + b * y2; c * y1 + d * y2] <= t * norm2 [y1; y2]).
  { unfold norm2 at 1. apply Rsqr_incr_0_var; [|apply Rmult_le_pos; [auto|apply norm2_nonneg]].
    rewrite Rsqr_sqrt by (apply dot_self_nonneg). unfold Rsqr.
    replace (t * norm2 [y1; y2] * (t * norm2 [y1; y2])) with ((t * t) * (norm2 [y1; y2] * norm2 [y1; y2])) by ring.
    unfold norm2. rewrite sqrt_sqrt by apply dot_self_nonneg. rewrite Tt. cbn. specialize (B y1 y2). lra. }
  pose proof (norm2_nonneg [x1; x2]). apply (Rmult_le_compat_l (norm2 [x1; x2])) in M; [|assumption]. lra.
Qed.

(** eleven accepted iterations with any exact prox *)
Lemma sq_run_any (dom : list R -> Prop) g prox (x0 : list R) :
  (forall x s, length x = length x0 -> 0 < s -> is_prox_on dom g s x (prox x s)) -> exists r,
  minimize_pg (K:=RN) (fun x => (sq x, x)) prox None SBacktracking 0 10 100 (6 / 10) false false x0 = Ok r /\
  Forall (fun it => it_found it = true) (r_iters r) /\ length (r_iters r) = 11%nat.
Proof.
  intros Hp. destruct (main_C34_no_exception RN (fun x => (sq x, x)) prox None SBacktracking 0 10 100 (6/10) false x0) as [r H];
    try discriminate.
  exists r. split; auto. split; [|apply (main_C34_max_iter_refuted _ _ _ _ _ _ _ _ _ H)].
  apply (main_C37_never_exhausted (length x0) sq (fun x => x) dom g prox 1) with (cb := None) (tol := 0) (max_iter := 10%nat) (max_bt := 100%nat) (factor := 6/10) (tc := false) (x0 := x0);
    try lra; auto.
  - intros. apply (sq_smooth (length x0)); auto.
  - pose proof (init_lip_lower (fun x => (sq x, x)) x0) as HL.
    set (L := init_lipschitz (K:=RN) _ _) in *.
    assert (H1 : 18 / 10 / L <= 1800).
    { apply Rmult_le_reg_r with L; [rn; lra|]. unfold Rdiv at 1. rewrite Rmult_assoc, Rinv_l, Rmult_1_r by (rn; lra). rn; lra. }
    assert (H0 : 0 < 18 / 10 / L) by (apply Rdiv_lt_0_compat; rn; lra).
    assert (H2 : (6 / 10) ^ (100 - 1) <= 1 / 1000000).
    { change (100 - 1)%nat with (30 + 69)%nat. rewrite pow_add.
      assert ((6 / 10) ^ 30 <= 1 / 1000000) by (simpl; lra).
      assert (0 < (6 / 10) ^ 69 <= 1).
      { split; [apply pow_lt; lra|]. rewrite <- (pow1 69). apply pow_incr; lra. }
      assert (0 < (6/10) ^ 30) by (apply pow_lt; lra). nra. }
    assert (H3 : 0 < (6/10) ^ (100 - 1)) by (apply pow_lt; lra).
    assert (H4 : (11 / 10) ^ 11 <= 3) by (simpl; lra).
    assert (H5 : 0 < (11 / 10) ^ 11) by (apply pow_lt; lra).
    assert (H6 : (11 / 10) ^ 11 * (18 / 10 / L) <= 3 * 1800) by nra.
    set (a := (11 / 10) ^ 11 * (18 / 10 / L)) in *. set (b := (6/10) ^ (100 - 1)) in *.
    assert (0 < a) by (apply Rmult_lt_0_compat; auto). rewrite Rinv_1. nra.
Qed.

