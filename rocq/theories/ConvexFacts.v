(** * Convex analysis used by the convergence proofs (independent of the model) *)
From Coq Require Import Reals List Lra Lia Psatz.
From Verif Require Import Num Vec Spec RVec.
Import ListNotations.
Open Scope R_scope.

(** expand inner products and squared distances of combinations *)
Ltac leng := unfold vplus, vminus;
  repeat (first [rewrite lin_length | rewrite smul_length | rewrite zeros_length]); lia.
Ltac ipx := unfold vplus, vminus;
  repeat (first [ rewrite dist2_dot by leng | rewrite dot_smul_l | rewrite dot_smul_r
         | rewrite dot_lin_l by leng | rewrite dot_lin_r by leng | progress unfold vplus, vminus ]).

Definition first_order (n : nat) (f : list R -> R) (gradf : list R -> list R) : Prop :=
  forall u v, length u = n -> length v = n -> f u + dot (gradf u) (vminus v u) <= f v.
Definition smooth_upper (n : nat) (L : R) (f : list R -> R) (gradf : list R -> list R) : Prop :=
  forall u v, length u = n -> length v = n ->
    f v <= f u + dot (gradf u) (vminus v u) + L / 2 * dist2 v u.
Definition grad_lipschitz (n : nat) (L : R) (gradf : list R -> list R) : Prop :=
  forall u v, length u = n -> length v = n ->
    norm2 (vminus (gradf u) (gradf v)) <= L * norm2 (vminus u v).

Lemma small_t (a b : R) : (forall t, 0 < t -> t <= 1 -> 0 <= a + t * b) -> 0 <= a.
Proof.
  intros H. destruct (Rle_lt_dec 0 a) as [|Ha]; auto. exfalso.
  destruct (Rle_lt_dec b 0) as [Hb|Hb].
  - specialize (H 1 ltac:(lra) ltac:(lra)). lra.
  - set (t := Rmin 1 (- a / (2 * b))).
    assert (0 < - a / (2 * b)) by (apply Rdiv_lt_0_compat; lra).
    assert (0 < t) by (unfold t; apply Rmin_pos; lra).
    assert (t <= 1) by apply Rmin_l.
    assert (t * b <= - a / 2).
    { apply Rle_trans with (- a / (2 * b) * b).
      - apply Rmult_le_compat_r; [lra|apply Rmin_r].
      - right; field; lra. }
    specialize (H t ltac:(auto) ltac:(auto)). lra.
Qed.

(** the variational inequality characterising prox of a convex function *)
Lemma prox_vi n dom g s x p : convex_on n dom g -> length x = n -> is_prox_on dom g s x p -> 0 < s ->
  forall y, length y = n -> dom y -> s * g p + dot (vminus x p) (vminus y p) <= s * g y.
Proof.
  intros [Hcs Hcv] Hx (Hl & Hd & Hmin & _) Hs y Hy Hdy.
  assert (G : 0 <= (s * (g y - g p) - dot (vminus x p) (vminus y p))).
  2:{ lra. }
  apply (small_t _ (/ 2 * dist2 y p)). intros t Ht Ht1.
  assert (Hlz : length (lin (1 - t) p t y) = length x) by len.
  specialize (Hmin (lin (1 - t) p t y) Hlz (Hcs p y t ltac:(lia) Hy Hd Hdy ltac:(lra))).
  specialize (Hcv p y t ltac:(lia) Hy Hd Hdy ltac:(lra)).
  unfold prox_obj in Hmin.
  assert (E : dist2 (lin (1 - t) p t y) x = dist2 p x - 2 * t * dot (vminus x p) (vminus y p) + t * t * dist2 y p).
  { ipx. rewrite !(dot_comm y p), !(dot_comm x p), !(dot_comm y x). ring. }
  rewrite E in Hmin.
  assert (s * g (lin (1 - t) p t y) <= s * ((1 - t) * g p + t * g y)) by (apply Rmult_le_compat_l; lra).
  apply Rmult_le_reg_l with t; auto. nra.
Qed.
Lemma prox_subgrad n dom g s x p : convex_on n dom g -> length x = n -> is_prox_on dom g s x p -> 0 < s ->
  subgrad n dom g p (smul (/ s) (vminus x p)).
Proof.
  intros Hc Hx Hp Hs. destruct Hp as (Hl & Hd & Hrest). split; [len|]. split; auto.
  intros y Hy Hdy.
  pose proof (prox_vi n dom g s x p Hc Hx (conj Hl (conj Hd Hrest)) Hs y Hy Hdy) as H.
  rewrite dot_smul_l. apply Rmult_le_reg_l with s; auto.
  rewrite Rmult_plus_distr_l, <- Rmult_assoc, Rinv_r, Rmult_1_l by lra. auto.
Qed.

(** one proximal gradient step: the fundamental inequality *)
Lemma pg_fundamental n dom g f gradf s sl x y :
  convex_on n dom g -> length x = n -> length y = n -> dom y -> length (gradf x) = n -> 0 < s -> s <= sl ->
  forall xp, is_prox_on dom g s (vminus x (smul s (gradf x))) xp ->
  f xp <= f x + dot (gradf x) (vminus xp x) + dist2 xp x / (2 * sl) ->
  f xp + g xp <= f x + dot (gradf x) (vminus y x) + g y + (dist2 x y - dist2 xp y) / (2 * s).
Proof.
  intros Hc Hx Hy Hdy Hg Hs Hsl xp Hp Hls.
  assert (Hlp : length xp = n) by (destruct Hp as [A _]; rewrite A; len).
  assert (Hl0 : length (vminus x (smul s (gradf x))) = n) by leng.
  pose proof (prox_vi n dom g s _ xp Hc Hl0 Hp Hs y Hy Hdy) as V.
  assert (Hd : dist2 xp x / (2 * sl) <= dist2 xp x / (2 * s)).
  { unfold Rdiv. apply Rmult_le_compat_l; [apply dist2_nonneg|]. apply Rinv_le_contravar; lra. }
  apply Rmult_le_reg_l with s; auto.
  assert (E : s * (f x + dot (gradf x) (vminus y x) + g y + (dist2 x y - dist2 xp y) / (2 * s))
     = s * f x + s * dot (gradf x) (vminus y x) + s * g y + (dist2 x y - dist2 xp y) / 2) by (field; lra).
  rewrite E.
  assert (E2 : s * (dist2 xp x / (2 * s)) = dist2 xp x / 2) by (field; lra).
  assert (s * f xp <= s * f x + s * dot (gradf x) (vminus xp x) + dist2 xp x / 2).
  { rewrite <- E2. rewrite <- !Rmult_plus_distr_l. apply Rmult_le_compat_l; lra. }
  revert V H. ipx. rewrite !(dot_comm y x), !(dot_comm xp x), !(dot_comm xp y), ?(dot_comm xp (gradf x)), ?(dot_comm y (gradf x)), ?(dot_comm x (gradf x)).
  intros; lra.
Qed.
