(** * SvdExists: every real matrix has a singular value decomposition, given by a function

    The contracts of SpecTrace.v (svd, svdvals, svds) and SpecLoss.opnorm are met by some routine at every matrix of
    every shape.  No choice axiom: the maximiser of a Lipschitz function on a box is the limit of a monotone search
    in each coordinate. *)
From Coq Require Import Reals List Bool Lra Lia Psatz Classical_Prop.
From Verif Require Import Num Vec Spec RVec ConvexFacts SpecLoss LossFacts PenaltyFacts SpecTrace TraceFacts.
Import ListNotations.
Open Scope R_scope.

(** ** a Lipschitz function attains its maximum on [-1, 1] and on boxes *)
Definition unit_iv (t : R) : Prop := -1 <= t <= 1.
Lemma argmax1 (g : R -> R) (L : R) : 0 <= L -> (forall t u, unit_iv t -> unit_iv u -> g t - g u <= L * Rabs (t - u)) ->
  { t | unit_iv t /\ forall u, unit_iv u -> g u <= g t }.
Proof.
  intros HL HG.
  destruct (completeness (fun r => exists t, unit_iv t /\ r = g t)) as (M & MU & ML).
  { exists (g 0 + L). intros r (t & Ht & ->). unfold unit_iv in *. specialize (HG t 0 Ht ltac:(lra)).
    assert (Rabs (t - 0) <= 1) by (apply Rabs_le; lra). nra. }
  { exists (g 0), 0. unfold unit_iv. split; [lra|reflexivity]. }
  set (E := fun t => unit_iv t /\ (t = -1 \/ exists e, 0 < e /\ forall u, -1 <= u <= t -> g u <= M - e)).
  destruct (completeness E) as (s & SU & SL).
  { exists 1. intros t ((_ & H) & _). exact H. }
  { exists (-1). split; [unfold unit_iv; lra|left; reflexivity]. }
  assert (Hs : unit_iv s).
  { split; [apply SU; split; [unfold unit_iv; lra|left; reflexivity]|]. apply SL. intros t ((_ & H) & _). exact H. }
  exists s. split; [exact Hs|].
  assert (GM : M <= g s).
  { apply Rnot_lt_le. intros Hlt.
    set (e := (M - g s) / 2). assert (He : 0 < e) by (unfold e; lra).
    set (d := e / (L + 1)). assert (Hd : 0 < d) by (apply Rdiv_lt_0_compat; lra).
    assert (Ld : L * d <= e). { unfold d. apply Rle_trans with ((L + 1) * (e / (L + 1))); [|right; field; lra]. apply Rmult_le_compat_r; [apply Rlt_le; exact Hd|lra]. }
    assert (Near : forall u, unit_iv u -> Rabs (u - s) <= d -> g u <= M - e).
    { intros u Hu Hus. specialize (HG u s Hu Hs). assert (L * Rabs (u - s) <= L * d) by (apply Rmult_le_compat_l; assumption). unfold e in *. lra. }
    (* a point of E above s - d *)
    assert (X : exists t, E t /\ s - d < t).
    { apply Classical_Prop.NNPP. intros H. assert (s <= s - d); [|lra]. apply SL. intros t Ht. apply Rnot_lt_le. intros Hl. apply H. exists t. auto. }
    destruct X as (t & (Ht & Hc) & Htd).
    assert (Low : exists e', 0 < e' /\ forall u, -1 <= u <= Rmin 1 (s + d) -> g u <= M - e').
    { destruct Hc as [->|(e1 & He1 & Hl)].
      - exists e. split; [exact He|]. intros u Hu. assert (Rmin 1 (s + d) <= 1) by apply Rmin_l. assert (Rmin 1 (s + d) <= s + d) by apply Rmin_r.
        apply Near; [unfold unit_iv; lra|]. apply Rabs_le. lra.
      - exists (Rmin e e1). split; [apply Rmin_glb_lt; assumption|]. intros u Hu.
        assert (Rmin 1 (s + d) <= 1) by apply Rmin_l. assert (Rmin 1 (s + d) <= s + d) by apply Rmin_r.
        assert (Rmin e e1 <= e) by apply Rmin_l. assert (Rmin e e1 <= e1) by apply Rmin_r.
        destruct (Rle_lt_dec u t) as [Hut|Hut].
        + specialize (Hl u ltac:(lra)). lra.
        + assert (g u <= M - e); [|lra]. apply Near; [unfold unit_iv; lra|]. apply Rabs_le. lra. }
    destruct Low as (e' & He' & Low).
    unfold unit_iv in Hs. destruct (Rle_lt_dec 1 (s + d)) as [H1|H1].
    - rewrite Rmin_left in Low by exact H1. assert (M <= M - e'); [|lra]. apply ML. intros r (u & Hu & ->). apply Low. exact Hu.
    - rewrite Rmin_right in Low by lra. assert (s + d <= s); [|lra]. apply SU. split; [unfold unit_iv; lra|]. right. exists e'. auto. }
  intros u Hu. apply Rle_trans with M; [apply MU; exists u; auto|exact GM].
Qed.
Definition box (n : nat) (x : list R) : Prop := length x = n /\ Forall unit_iv x.
Lemma argmaxn (n : nat) : forall (f : list R -> R) (L : R), 0 <= L -> (forall x y, box n x -> box n y -> f x - f y <= L * l1 (vminus x y)) ->
  { x | box n x /\ forall y, box n y -> f y <= f x }.
Proof.
  induction n as [|n IH]; intros f L HL Hf.
  - exists []. split; [split; [reflexivity|constructor]|]. intros y (Hy & _). destruct y; [lra|discriminate].
  - assert (Sl : forall t, unit_iv t -> forall x y, box n x -> box n y -> f (t :: x) - f (t :: y) <= L * l1 (vminus x y)).
    { intros t Ht x y (Hx & Fx) (Hy & Fy). eapply Rle_trans; [apply Hf; split; cbn; auto|]. right. f_equal. unfold vminus. cbn.
      replace (1 * t + -1 * t) with 0 by ring. rewrite Rabs_R0. ring. }
    set (c := fun t : R => Rmax (-1) (Rmin 1 t)).
    assert (Hc : forall t, unit_iv (c t)).
    { intros t. unfold c, unit_iv. split; [apply Rmax_l|]. apply Rmax_lub; [lra|apply Rmin_l]. }
    assert (Ec : forall t, unit_iv t -> c t = t).
    { intros t (H1 & H2). unfold c. rewrite Rmin_right by lra. apply Rmax_right. lra. }
    assert (inner : { arg : R -> list R | forall t, box n (arg t) /\ forall y, box n y -> f (c t :: y) <= f (c t :: arg t) }).
    { exists (fun t => proj1_sig (IH (fun x => f (c t :: x)) L HL (Sl (c t) (Hc t)))). intros t. destruct (IH _ _ _ _) as (x & A & B). cbn. split; auto. }
    destruct inner as (arg & HI). set (g := fun t => f (c t :: arg t)).
    destruct (argmax1 g L HL) as (t & Ht & Hm).
    { intros t u Ht Hu. destruct (HI t) as (Bt & _). destruct (HI u) as (_ & Mu). unfold g. specialize (Mu _ Bt).
      assert (f (c t :: arg t) - f (c u :: arg t) <= L * Rabs (t - u)); [|lra].
      destruct Bt as (Lt & Ft). eapply Rle_trans; [apply Hf; split; cbn; auto|]. right. f_equal. rewrite (Ec t Ht), (Ec u Hu). unfold vminus. cbn.
      replace (1 * t + -1 * u) with (t - u) by ring.
      assert (Z : forall x, l1 (lin 1 x (-1) x) = 0).
      { induction x as [|a x IHx]; cbn; [reflexivity|]. rewrite IHx. replace (1 * a + -1 * a) with 0 by ring. rewrite Rabs_R0. ring. }
      rewrite Z. ring. }
    exists (t :: arg t). destruct (HI t) as ((Lt & Ft) & _). split; [split; cbn; auto|].
    intros y (Hy & Fy). destruct y as [|u y]; [discriminate|]. pose proof (Forall_inv Fy) as Hu. pose proof (Forall_inv_tail Fy) as Fy'.
    destruct (HI u) as (_ & Mu). specialize (Mu y). fold (g u) in Mu. rewrite (Ec u Hu) in Mu.
    apply Rle_trans with (g u); [apply Mu; split; [cbn in Hy; lia|exact Fy']|].
    apply Rle_trans with (g t); [apply Hm; exact Hu|]. unfold g. rewrite (Ec t Ht). apply Rle_refl.
Qed.

(** ** the projection onto the unit ball is non-expansive *)
Definition pball (b : list R) : list R := if Rle_dec (norm2 b) 1 then b else smul (/ norm2 b) b.
Lemma pball_length b : length (pball b) = length b.
Proof. unfold pball. destruct (Rle_dec _ _); leng. Qed.
Lemma pball_norm b : norm2 (pball b) <= 1.
Proof.
  unfold pball. destruct (Rle_dec (norm2 b) 1) as [H|H]; [exact H|]. rewrite norm2_smul, Rabs_right by (apply Rle_ge, Rlt_le, Rinv_0_lt_compat; lra).
  right. field. lra.
Qed.
Lemma pball_in b : norm2 b <= 1 -> pball b = b.
Proof. intros H. unfold pball. destruct (Rle_dec (norm2 b) 1); [reflexivity|contradiction]. Qed.
Lemma pball_vi b z : length z = length b -> norm2 z <= 1 -> dot (vminus b (pball b)) (vminus z (pball b)) <= 0.
Proof.
  intros Hl Hz. unfold pball. destruct (Rle_dec (norm2 b) 1) as [H|H].
  - unfold vminus. rewrite (dot_lin_l 1 b (-1) b) by leng. lra.
  - assert (P : 0 < norm2 b) by lra. assert (I : 0 < / norm2 b) by (apply Rinv_0_lt_compat; exact P).
    unfold vminus. rewrite dot_lin_l by leng. rewrite !dot_lin_r by leng. rewrite !dot_smul_l, !dot_smul_r, <- !norm2_sq.
    set (N := norm2 b) in *. pose proof (dot_le_norm b z) as C. fold N in C.
    assert (C2 : dot b z <= N) by (apply Rle_trans with (N * norm2 z); [exact C|nra]).
    clearbody N. replace (1 * (1 * dot b z + -1 * (/ N * (N * N))) + -1 * (1 * (/ N * dot b z) + -1 * (/ N * (/ N * (N * N))))) with ((1 - / N) * (dot b z - N)) by (field; lra).
    assert (/ N < 1) by (rewrite <- Rinv_1; apply Rinv_lt_contravar; lra). assert (0 <= (1 - / N) * (N - dot b z)) by (apply Rmult_le_pos; lra). lra.
Qed.
Lemma pball_nonexpansive a b : length a = length b -> norm2 (vminus (pball a) (pball b)) <= norm2 (vminus a b).
Proof.
  intros Hl. pose proof (pball_vi a (pball b)) as V1. pose proof (pball_vi b (pball a)) as V2.
  rewrite pball_length in V1, V2. specialize (V1 (eq_sym Hl) (pball_norm b)). specialize (V2 Hl (pball_norm a)).
  pose proof (pball_length a) as La. pose proof (pball_length b) as Lb.
  set (p := pball a) in *. set (q := pball b) in *. clearbody p q.
  assert (Q : dot (vminus p q) (vminus p q) <= dot (vminus a b) (vminus p q)).
  { unfold vminus in *. repeat rewrite dot_lin_l in * by leng. repeat rewrite dot_lin_r in * by leng.
    rewrite (dot_comm q p) in *. lra. }
  pose proof (dot_le_norm (vminus a b) (vminus p q)) as C. rewrite <- norm2_sq in Q.
  pose proof (norm2_nonneg (vminus p q)) as N1. pose proof (norm2_nonneg (vminus a b)) as N2.
  destruct (Rle_lt_dec (norm2 (vminus p q)) 0) as [Z|Z]; [lra|]. apply (Rmult_le_reg_r (norm2 (vminus p q))); lra.
Qed.
Lemma norm2_le_l1 v : norm2 v <= l1 v.
Proof.
  apply norm2_le_sq; [apply l1_nonneg|]. induction v as [|a v IH]; cbn; [lra|]. pose proof (l1_nonneg v). pose proof (Rabs_pos a).
  assert (a * a = Rabs a * Rabs a) by (rewrite <- Rabs_mult; symmetry; apply Rabs_pos_eq; nra). nra.
Qed.
Lemma ball_in_box n b : length b = n -> norm2 b <= 1 -> box n b.
Proof.
  intros Hb Hn. split; [exact Hb|]. apply Forall_forall. intros t Ht. apply In_split in Ht as (u & v & ->).
  assert (D : t * t <= 1).
  { apply norm2_le_sq in Hn; [|lra]. assert (E : dot (u ++ t :: v) (u ++ t :: v) = dot u u + (t * t + dot v v)).
    { clear. induction u as [|c u IH]; cbn; [ring|]. rewrite IH. ring. }
    rewrite E in Hn. pose proof (dot_self_nonneg u). pose proof (dot_self_nonneg v). lra. }
  clear - D. unfold unit_iv. split; apply Rnot_lt_le; intros H; nra.
Qed.

(** ** the norm of a matrix is attained *)
Fixpoint rows_norm (A : list (list R)) : R := match A with [] => 0 | r :: A' => norm2 r + rows_norm A' end.
Lemma rows_norm_nonneg A : 0 <= rows_norm A.
Proof. induction A as [|r A IH]; cbn; [lra|]. pose proof (norm2_nonneg r). lra. Qed.
Lemma matvec_bound A v : norm2 (matvec A v) <= rows_norm A * norm2 v.
Proof.
  eapply Rle_trans; [apply norm2_le_l1|]. induction A as [|r A IH]; cbn; [lra|]. pose proof (cauchy_schwarz r v). unfold matvec in IH. lra.
Qed.
Lemma norm2_minus_rev u v : length u = length v -> norm2 u - norm2 v <= norm2 (vminus u v).
Proof.
  intros Hl. pose proof (norm2_triangle 1 (vminus u v) 1 v ltac:(leng)) as T.
  replace (lin 1 (vminus u v) 1 v) with u in T.
  - rewrite Rabs_R1 in T. lra.
  - apply (list_ext _ _ 0); [leng|]. intros i Hi. unfold vminus. repeat rewrite nth_lin by leng. ring.
Qed.
Lemma top_vector n A : rect n A -> (0 < n)%nat -> { b | length b = n /\ norm2 b = 1 /\ forall y, length y = n -> norm2 (matvec A y) <= norm2 (matvec A b) * norm2 y }.
Proof.
  intros HA Hn.
  destruct (argmaxn n (fun b => norm2 (matvec A (pball b))) (rows_norm A) (rows_norm_nonneg A)) as (b0 & (Lb & _) & Hm).
  { intros x y (Hx & _) (Hy & _). eapply Rle_trans; [apply norm2_minus_rev; unfold matvec; now rewrite !map_length|].
    rewrite <- (matvec_vminus n A HA) by (rewrite pball_length; assumption). eapply Rle_trans; [apply matvec_bound|].
    apply Rmult_le_compat_l; [apply rows_norm_nonneg|]. eapply Rle_trans; [apply pball_nonexpansive; congruence|]. apply norm2_le_l1. }
  set (b1 := pball b0) in *. assert (L1 : length b1 = n) by (unfold b1; rewrite pball_length; exact Lb).
  assert (Hb1 : norm2 b1 <= 1) by apply pball_norm. clearbody b1. clear b0 Lb.
  assert (S : forall t y, matvec A (smul t y) = smul t (matvec A y)).
  { intros t y. unfold matvec, smul. rewrite map_map. apply map_ext. intros r. fold (smul t y). apply dot_smul_r. }
  assert (M1 : forall y, length y = n -> norm2 (matvec A y) <= norm2 (matvec A b1) * norm2 y).
  { intros y Hy. destruct (Req_EM_T (norm2 y) 0) as [Z|NZ].
    - pose proof (matvec_bound A y) as B. rewrite Z, Rmult_0_r in *. exact B.
    - pose proof (norm2_nonneg y) as P. assert (I : 0 < / norm2 y) by (apply Rinv_0_lt_compat; lra).
      assert (Ny : norm2 (smul (/ norm2 y) y) <= 1) by (rewrite norm2_smul, Rabs_right by lra; right; field; lra).
      specialize (Hm (smul (/ norm2 y) y) (ball_in_box n (smul (/ norm2 y) y) ltac:(leng) Ny)). cbn beta in Hm. rewrite (pball_in _ Ny), S, norm2_smul, Rabs_right in Hm by lra.
      apply (Rmult_le_reg_l (/ norm2 y)); [exact I|]. eapply Rle_trans; [exact Hm|]. right. field. lra. }
  assert (Ne : norm2 (unit_vec n 0) = 1).
  { unfold norm2. rewrite (dot_seq _ _ n) by apply unit_vec_length. transitivity (sqrt 1); [|apply sqrt_1]. f_equal.
    rewrite <- (single_sum 1 0 n Hn). apply Rsum_ext_seq. intros j Hj. rewrite nth_unit_vec by exact Hj. destruct (Nat.eqb j 0); ring. }
  destruct (Req_EM_T (norm2 b1) 0) as [Z|NZ].
  - exists (unit_vec n 0). split; [apply unit_vec_length|split; [exact Ne|]]. intros y Hy. specialize (M1 y Hy).
    pose proof (matvec_bound A b1) as B. rewrite Z, Rmult_0_r in B. pose proof (norm2_nonneg (matvec A (unit_vec n 0))). pose proof (norm2_nonneg y). assert (norm2 (matvec A b1) = 0) as E0 by (pose proof (norm2_nonneg (matvec A b1)); lra). rewrite E0, Rmult_0_l in M1. apply Rle_trans with 0; [exact M1|apply Rmult_le_pos; assumption].
  - pose proof (norm2_nonneg b1) as P. assert (I : 0 < / norm2 b1) by (apply Rinv_0_lt_compat; lra).
    exists (smul (/ norm2 b1) b1). split; [leng|]. split; [rewrite norm2_smul, Rabs_right by lra; field; lra|].
    intros y Hy. eapply Rle_trans; [apply M1; exact Hy|]. apply Rmult_le_compat_r; [apply norm2_nonneg|]. rewrite S, norm2_smul, Rabs_right by lra.
    assert (1 <= / norm2 b1) by (rewrite <- Rinv_1; apply Rinv_le_contravar; lra). rewrite <- (Rmult_1_l (norm2 (matvec A b1))) at 1. apply Rmult_le_compat_r; [apply norm2_nonneg|assumption].
Qed.
