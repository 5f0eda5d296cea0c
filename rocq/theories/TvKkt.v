(** * Optimality conditions of the 1-D total variation prox *)
From Coq Require Import ZArith Bool List Lia Reals Lra.
From Verif Require Import Num Vec Spec RVec.
Import ListNotations.
Local Open Scope R_scope.

(** sum over j < m *)
Fixpoint sm (m : nat) (f : nat -> R) : R := match m with O => 0 | S m => sm m f + f m end.
Lemma sm_ext m f g : (forall j, (j < m)%nat -> f j = g j) -> sm m f = sm m g.
Proof. induction m; intros H; cbn; [reflexivity|]. rewrite IHm by (intros; apply H; lia). rewrite H by lia. reflexivity. Qed.
Lemma sm_le m f g : (forall j, (j < m)%nat -> f j <= g j) -> sm m f <= sm m g.
Proof. induction m; intros H; cbn; [lra|]. specialize (IHm ltac:(intros; apply H; lia)). specialize (H m ltac:(lia)). lra. Qed.
Lemma sm_add m f g : sm m (fun j => f j + g j) = sm m f + sm m g.
Proof. induction m; cbn; [ring|rewrite IHm; ring]. Qed.
Lemma sm_scal m a f : sm m (fun j => a * f j) = a * sm m f.
Proof. induction m; cbn; [ring|rewrite IHm; ring]. Qed.
Lemma sm_head m f : sm (S m) f = f 0%nat + sm m (fun j => f (S j)).
Proof. induction m; cbn in *; [ring|rewrite IHm; ring]. Qed.
Lemma sm_zero m f : (forall j, (j < m)%nat -> f j = 0) -> sm m f = 0.
Proof. induction m; intros H; cbn; [reflexivity|]. rewrite IHm by (intros; apply H; lia). rewrite H by lia. ring. Qed.

Lemma dot_sm u v : length u = length v -> dot u v = sm (length u) (fun j => nth j u 0 * nth j v 0).
Proof.
  revert v; induction u as [|a u IH]; intros [|b v] H; try discriminate; [reflexivity|]. cbn [dot length]. rewrite sm_head. cbn [nth]. rewrite IH by (cbn in H; lia). reflexivity.
Qed.
Lemma Rsum_sm u : Rsum u = sm (length u) (fun j => nth j u 0).
Proof. induction u as [|a u IH]; [reflexivity|]. cbn [Rsum length]. rewrite sm_head. cbn [nth]. rewrite IH. reflexivity. Qed.
Lemma tv_sm v : tv v = sm (length v - 1) (fun j => Rabs (nth (S j) v 0 - nth j v 0)).
Proof.
  induction v as [|a v IH]; [reflexivity|]. destruct v as [|b v]; [reflexivity|]. change (tv (a :: b :: v)) with (Rabs (b - a) + tv (b :: v)). rewrite IH. cbn [length].
  replace (S (S (length v)) - 1)%nat with (S (length v)) by lia. replace (S (length v) - 1)%nat with (length v) by lia. rewrite sm_head. reflexivity.
Qed.

(** summation by parts *)
Lemma by_parts m (P d : nat -> R) :
  sm (S m) (fun j => (P j - P (S j)) * d j) = P 0%nat * d 0%nat + sm m (fun j => P (S j) * (d (S j) - d j)) - P (S m) * d m.
Proof. induction m; [cbn; ring|]. change (sm (S (S m)) ?f) with (sm (S m) f + f (S m)). rewrite IHm. cbn [sm]. ring. Qed.

(** x solves the problem if some P has P 0 = P n = 0, P j - P (j+1) = w j - x j, |P j| <= step and
    P j (x j - x (j-1)) = step |x j - x (j-1)| *)
Lemma tv_kkt (w x : list R) (step : R) (P : nat -> R) : length x = length w -> P 0%nat = 0 -> P (length w) = 0 ->
  (forall j, (j < length w)%nat -> nth j w 0 - nth j x 0 = P j - P (S j)) ->
  (forall j, (S j < length w)%nat -> Rabs (P (S j)) <= step /\ P (S j) * (nth (S j) x 0 - nth j x 0) = step * Rabs (nth (S j) x 0 - nth j x 0)) ->
  forall y, length y = length w -> step * tv x + dot (vminus w x) (vminus y x) <= step * tv y.
Proof.
  intros L P0 Pn Hd Hk y Ly. destruct (length w) as [|m] eqn:En.
  { destruct w; [|discriminate]. destruct x; [|discriminate]. destruct y; [|discriminate]. cbn. lra. }
  rewrite dot_sm by (unfold vminus; rewrite !lin_length; lia). replace (length (vminus w x)) with (S m) by (unfold vminus; rewrite lin_length; lia).
  rewrite (sm_ext (S m) _ (fun j => (P j - P (S j)) * (nth j y 0 - nth j x 0))).
  2:{ intros j Hj. rewrite !nth_vminus by lia. rewrite Hd by lia. reflexivity. }
  rewrite (by_parts m P (fun j => nth j y 0 - nth j x 0)), P0, Pn, !tv_sm, L, Ly. replace (S m - 1)%nat with m by lia.
  rewrite <- !sm_scal. assert (G : sm m (fun j => step * Rabs (nth (S j) x 0 - nth j x 0)) + sm m (fun j => P (S j) * (nth (S j) y 0 - nth (S j) x 0 - (nth j y 0 - nth j x 0))) <= sm m (fun j => step * Rabs (nth (S j) y 0 - nth j y 0))).
  { rewrite <- sm_add. apply sm_le. intros j Hj. destruct (Hk j ltac:(lia)) as (H1 & H2). rewrite <- H2.
    replace (P (S j) * (nth (S j) x 0 - nth j x 0) + P (S j) * (nth (S j) y 0 - nth (S j) x 0 - (nth j y 0 - nth j x 0))) with (P (S j) * (nth (S j) y 0 - nth j y 0)) by ring.
    eapply Rle_trans; [apply Rle_abs|]. rewrite Rabs_mult. apply Rmult_le_compat_r; [apply Rabs_pos|exact H1]. }
  lra.
Qed.
