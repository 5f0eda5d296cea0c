(** * RVec: facts about real vectors (lists), and the model's vector operations at [RN]. *)
From Coq Require Import Reals List Lia Lra Psatz Bool.
From Verif Require Import Num Vec Spec.
Import ListNotations.
Open Scope R_scope.

(** ** list updates and checked access *)
Lemma upd_length {A} (l : list A) i x : length (upd l i x) = length l.
Proof. revert i; induction l as [|h t IH]; intros [|i]; simpl; auto. Qed.
Lemma nth_upd_eq {A} (l : list A) i x d : (i < length l)%nat -> nth i (upd l i x) d = x.
Proof. revert i; induction l as [|h t IH]; intros [|i] H; simpl in *; try lia; auto. apply IH; lia. Qed.
Lemma nth_upd_neq {A} (l : list A) i j x d : i <> j -> nth j (upd l i x) d = nth j l d.
Proof.
  revert i j; induction l as [|h t IH]; intros [|i] [|j] H; simpl; auto; try congruence.
Qed.
Lemma nth_upd {A} (l : list A) i j x d :
  nth j (upd l i x) d = if Nat.eqb i j then (if Nat.ltb i (length l) then x else d) else nth j l d.
Proof.
  destruct (Nat.eqb_spec i j) as [->|H].
  - destruct (Nat.ltb_spec j (length l)); [apply nth_upd_eq; auto|].
    rewrite nth_overflow; auto. rewrite upd_length; auto.
  - apply nth_upd_neq; auto.
Qed.
Lemma nth_error_upd {A} (l : list A) i j x :
  nth_error (upd l i x) j =
  if Nat.eqb i j then (if Nat.ltb i (length l) then Some x else None) else nth_error l j.
Proof.
  revert i j; induction l as [|h t IH]; intros [|i] [|j]; simpl; auto.
  - destruct (Nat.eqb i j); auto.
  - rewrite IH. reflexivity.
Qed.
Lemma upd_id {A} (l : list A) i d : (i < length l)%nat -> upd l i (nth i l d) = l.
Proof. revert i; induction l as [|h t IH]; intros [|i] H; simpl in *; try lia; auto. f_equal; apply IH; lia. Qed.
Lemma get_ok {A} (l : list A) i d : (i < length l)%nat -> get l i = Ok (nth i l d).
Proof. intro H. unfold get. rewrite (nth_error_nth' l d H). reflexivity. Qed.
Lemma get_inv {A} (l : list A) i x : get l i = Ok x -> (i < length l)%nat /\ forall d, nth i l d = x.
Proof.
  unfold get. destruct (nth_error l i) eqn:E; intro H; inversion H; subst.
  split. apply nth_error_Some; congruence. intro d. apply nth_error_nth; auto.
Qed.
Lemma set_ok {A} (l : list A) i x : (i < length l)%nat -> set l i x = Ok (upd l i x).
Proof. intro H. unfold set. apply Nat.ltb_lt in H. rewrite H. reflexivity. Qed.
Lemma set_inv {A} (l : list A) i x l' :
  set l i x = Ok l' -> (i < length l)%nat /\ l' = upd l i x.
Proof. unfold set. destruct (Nat.ltb_spec i (length l)); intro E; inversion E; auto. Qed.

Lemma map2_length {A B C} (f : A -> B -> C) u v :
  length (map2 f u v) = Nat.min (length u) (length v).
Proof. revert v; induction u; intros [|b v]; simpl; auto. Qed.
Lemma nth_map2 {A B C} (f : A -> B -> C) u v i da db dc :
  (i < length u)%nat -> (i < length v)%nat ->
  nth i (map2 f u v) dc = f (nth i u da) (nth i v db).
Proof.
  revert v i; induction u as [|a u IH]; intros [|b v] [|i] H1 H2; simpl in *; try lia; auto.
  apply IH; lia.
Qed.
Lemma list_ext {A} (u v : list A) d :
  length u = length v -> (forall i, (i < length u)%nat -> nth i u d = nth i v d) -> u = v.
Proof.
  intros. apply nth_ext with d d; auto.
Qed.

Lemma bind_ok {A B} (m : result A) (f : A -> result B) b :
  bind m f = Ok b -> exists a, m = Ok a /\ f a = Ok b.
Proof. destruct m; simpl; intro H; [eauto|discriminate]. Qed.

Lemma forM_app {A S} (l1 l2 : list A) (body : A -> S -> result S) s :
  forM (l1 ++ l2) body s = bind (forM l1 body s) (forM l2 body).
Proof.
  revert s; induction l1 as [|a l IH]; intro s; simpl; auto.
  destruct (body a s); simpl; auto.
Qed.
(** Loop rule: an invariant indexed by the processed prefix. *)
Lemma forM_inv {A S} (body : A -> S -> result S) (I : list A -> S -> Prop) l s :
  I [] s ->
  (forall p a q s, l = p ++ a :: q -> I p s -> exists s', body a s = Ok s' /\ I (p ++ [a]) s') ->
  exists s', forM l body s = Ok s' /\ I l s'.
Proof.
  intros H0 Hs.
  assert (G : forall q p s, l = p ++ q -> I p s -> exists s', forM q body s = Ok s' /\ I l s').
  { induction q as [|a q IH]; intros p s1 E HI.
    - rewrite app_nil_r in E; subst. simpl; eauto.
    - destruct (Hs p a q s1 E HI) as (s' & Hb & HI'). simpl. rewrite Hb. simpl.
      apply (IH (p ++ [a])); auto. rewrite <- app_assoc; simpl; auto. }
  apply (G l []); auto.
Qed.
(** Partial-correctness variant: nothing is assumed about the body succeeding. *)
Lemma forM_ok_inv {A S} (body : A -> S -> result S) (I : S -> Prop) l s s' :
  forM l body s = Ok s' -> I s ->
  (forall a s s', In a l -> body a s = Ok s' -> I s -> I s') -> I s'.
Proof.
  revert s; induction l as [|a l IH]; intros s E H0 Hs; simpl in E.
  - inversion E; subst; auto.
  - apply bind_ok in E. destruct E as (s1 & E1 & E2).
    eapply IH; eauto. eapply Hs; simpl; eauto. intros; eapply Hs; simpl; eauto.
Qed.

(** ** sums and dot products *)
Lemma lin_length a u b v : length (lin a u b v) = Nat.min (length u) (length v).
Proof. revert v; induction u; intros [|y v]; simpl; auto. Qed.
Lemma smul_length a u : length (smul a u) = length u.
Proof. apply map_length. Qed.
Lemma zeros_length n : length (zeros n) = n.
Proof. apply repeat_length. Qed.
Lemma unit_vec_length n i : length (unit_vec n i) = n.
Proof. unfold unit_vec; rewrite map_length, seq_length; auto. Qed.

Ltac len := unfold vplus, vminus in *;
  repeat (rewrite ?lin_length, ?smul_length, ?zeros_length, ?unit_vec_length, ?map_length,
    ?upd_length, ?map2_length, ?app_length, ?repeat_length, ?seq_length in *);
  simpl length in *; try lia.

Lemma nth_lin a u b v i : length u = length v ->
  nth i (lin a u b v) 0 = a * nth i u 0 + b * nth i v 0.
Proof.
  revert v i; induction u as [|x u IH]; intros [|y v] [|i] H; simpl in *; try discriminate; try lra.
  apply IH; lia.
Qed.
Lemma nth_vminus u v i : length u = length v -> nth i (vminus u v) 0 = nth i u 0 - nth i v 0.
Proof. intro H. unfold vminus. rewrite nth_lin by auto. lra. Qed.
Lemma nth_vplus u v i : length u = length v -> nth i (vplus u v) 0 = nth i u 0 + nth i v 0.
Proof. intro H. unfold vplus. rewrite nth_lin by auto. lra. Qed.
Lemma nth_smul a u i : nth i (smul a u) 0 = a * nth i u 0.
Proof.
  revert i; induction u as [|x u IH]; intros [|i]; simpl; auto; lra.
Qed.
Lemma nth_zeros n i : nth i (zeros n) 0 = 0.
Proof. unfold zeros. revert i; induction n; intros [|i]; simpl; auto. Qed.
Lemma nth_unit_vec n i j : (j < n)%nat -> nth j (unit_vec n i) 0 = if Nat.eqb j i then 1 else 0.
Proof.
  intro H. unfold unit_vec.
  rewrite (nth_indep _ 0 ((fun j => if Nat.eqb j i then 1 else 0) 0%nat)) by (rewrite map_length, seq_length; auto).
  rewrite (map_nth (fun j => if Nat.eqb j i then 1 else 0)). rewrite seq_nth by auto. reflexivity.
Qed.

Lemma dot_lin_l a u b v w : length u = length w -> length v = length w ->
  dot (lin a u b v) w = a * dot u w + b * dot v w.
Proof.
  revert v w; induction u as [|x u IH]; intros [|y v] [|z w] H1 H2; simpl in *; try discriminate; try lra.
  rewrite IH by lia. lra.
Qed.
Lemma dot_comm u v : dot u v = dot v u.
Proof. revert v; induction u; intros [|y v]; simpl; auto. rewrite IHu; lra. Qed.
Lemma dot_lin_r a u b v w : length u = length w -> length v = length w ->
  dot w (lin a u b v) = a * dot w u + b * dot w v.
Proof. intros. rewrite dot_comm, dot_lin_l, (dot_comm u), (dot_comm v); auto. Qed.
Lemma dot_smul_l a u v : dot (smul a u) v = a * dot u v.
Proof.
  revert v; induction u as [|x u IH]; intros [|y v]; simpl; try lra.
  unfold smul in IH; rewrite IH; lra.
Qed.
Lemma dot_smul_r a u v : dot u (smul a v) = a * dot u v.
Proof. rewrite dot_comm, dot_smul_l, dot_comm; auto. Qed.
Lemma dot_zeros_l n v : dot (zeros n) v = 0.
Proof. revert v; induction n; intros [|y v]; simpl; auto. unfold zeros in IHn. rewrite IHn; lra. Qed.
Lemma dot_zeros_r n v : dot v (zeros n) = 0.
Proof. rewrite dot_comm; apply dot_zeros_l. Qed.
Lemma dot_nil_r u : dot u [] = 0.
Proof. destruct u; reflexivity. Qed.
Lemma dot_self_nonneg u : 0 <= dot u u.
Proof. induction u; simpl; [lra|]. nra. Qed.
Lemma dot_self_zero u : dot u u = 0 -> u = zeros (length u).
Proof.
  induction u as [|x u IH]; simpl; intro H; auto.
  pose proof (dot_self_nonneg u). assert (x * x = 0) by nra. assert (x = 0) by nra.
  unfold zeros in *; simpl. rewrite <- IH by nra. congruence.
Qed.
Lemma dot_self_zero_l u v : dot u u = 0 -> dot u v = 0.
Proof. intro H. rewrite (dot_self_zero u H). apply dot_zeros_l. Qed.

Lemma dist2_dot u v : length u = length v -> dist2 u v = dot (vminus u v) (vminus u v).
Proof.
  unfold vminus. revert v; induction u as [|x u IH]; intros [|y v] H; simpl in *; try discriminate; auto.
  rewrite IH by lia. ring.
Qed.
Lemma dist2_nonneg u v : 0 <= dist2 u v.
Proof. revert v; induction u as [|x u IH]; intros [|y v]; simpl; try lra. specialize (IH v). pose proof (Rle_0_sqr (x - y)). unfold Rsqr in *. lra. Qed.
Lemma dist2_sym u v : dist2 u v = dist2 v u.
Proof. revert v; induction u as [|x u IH]; intros [|y v]; simpl; try lra. rewrite (IH v). ring. Qed.
Lemma dist2_refl u : dist2 u u = 0.
Proof. induction u; simpl; [lra|]. rewrite IHu; ring. Qed.
Lemma dist2_zero u v : length u = length v -> dist2 u v <= 0 -> u = v.
Proof.
  revert v; induction u as [|x u IH]; intros [|y v] H D; simpl in *; try discriminate; auto.
  pose proof (dist2_nonneg u v). pose proof (Rle_0_sqr (x - y)) as P. unfold Rsqr in P.
  assert (E : (x - y) * (x - y) = 0) by lra.
  apply Rmult_integral in E. assert (x = y) by (destruct E; lra). f_equal; auto. apply IH; [lia|lra].
Qed.
(** expansion of ||y-x||^2 around p *)
Lemma dist2_expand y p x : length y = length x -> length p = length x ->
  dist2 y x = dist2 p x + dist2 y p - 2 * dot (vminus x p) (vminus y p).
Proof.
  unfold vminus. revert p x; induction y as [|a y IH]; intros [|b p] [|c x] H1 H2; simpl in *; try discriminate; try lra.
  rewrite (IH p x) by lia. ring.
Qed.

Lemma projection_intro (C : list R -> Prop) x p :
  length p = length x -> C p ->
  (forall y, length y = length x -> C y -> dot (vminus x p) (vminus y p) <= 0) ->
  is_projection C x p.
Proof.
  intros Hl Hc HV. repeat split; auto.
  - intros y Hy Cy. rewrite (dist2_expand y p x) by auto.
    pose proof (HV y Hy Cy). pose proof (dist2_nonneg y p). lra.
  - intros y Hy Cy D. rewrite (dist2_expand y p x) in D by auto.
    pose proof (HV y Hy Cy). apply dist2_zero; [lia|]. lra.
Qed.

Lemma prox_intro_on (dom : list R -> Prop) (g : list R -> R) step x p :
  length p = length x -> dom p ->
  (forall y, length y = length x -> dom y ->
     step * g p + dot (vminus x p) (vminus y p) <= step * g y) ->
  is_prox_on dom g step x p.
Proof.
  intros Hl Hd HV. unfold is_prox_on, prox_obj. repeat split; auto.
  - intros y Hy Dy. rewrite (dist2_expand y p x) by auto.
    pose proof (HV y Hy Dy). pose proof (dist2_nonneg y p). lra.
  - intros y Hy Dy D. rewrite (dist2_expand y p x) in D by auto.
    pose proof (HV y Hy Dy). apply dist2_zero; [lia|]. lra.
Qed.
Lemma prox_intro (g : list R -> R) step x p :
  length p = length x ->
  (forall y, length y = length x ->
     step * g p + dot (vminus x p) (vminus y p) <= step * g y) ->
  is_prox g step x p.
Proof. intros; apply prox_intro_on; auto. Qed.

(** ** Cauchy-Schwarz and norms *)
Lemma dot_quad u v t : 0 <= dot u u + 2 * t * dot u v + t * t * dot v v.
Proof.
  revert v; induction u as [|x u IH]; intros [|y v]; simpl.
  - lra.
  - pose proof (dot_self_nonneg v). pose proof (Rle_0_sqr y). pose proof (Rle_0_sqr t). unfold Rsqr in *.
    assert (0 <= t * t * (y * y + dot v v)) by (apply Rmult_le_pos; lra). lra.
  - pose proof (dot_self_nonneg u). pose proof (Rle_0_sqr x). unfold Rsqr in *. lra.
  - specialize (IH v). pose proof (Rle_0_sqr (x + t * y)) as P. unfold Rsqr in P.
    assert (x * x + dot u u + 2 * t * (x * y + dot u v) + t * t * (y * y + dot v v)
      = (x + t * y) * (x + t * y) + (dot u u + 2 * t * dot u v + t * t * dot v v)) as -> by ring.
    lra.
Qed.
Lemma cauchy_sq u v : dot u v * dot u v <= dot u u * dot v v.
Proof.
  pose proof (dot_self_nonneg u) as Hu. pose proof (dot_self_nonneg v) as Hv.
  pose proof (dot_quad u v) as Q.
  set (p := dot u v) in *. set (a := dot u u) in *. set (b := dot v v) in *.
  destruct (Req_dec b 0) as [E|E].
  - rewrite E in *. destruct (Req_dec p 0) as [Ep|Ep]; [rewrite Ep; lra|].
    specialize (Q (- (a + 1) / (2 * p))).
    replace (2 * (- (a + 1) / (2 * p)) * p) with (- (a + 1)) in Q by (field; auto). lra.
  - specialize (Q (- p / b)). assert (0 < b) by lra.
    replace (a + 2 * (- p / b) * p + - p / b * (- p / b) * b) with ((a * b - p * p) / b) in Q by (field; auto).
    apply Rmult_le_compat_r with (r := b) in Q; [|lra].
    unfold Rdiv in Q. rewrite Rmult_assoc, Rinv_l in Q by auto. lra.
Qed.
Lemma norm2_nonneg v : 0 <= norm2 v.
Proof. apply sqrt_pos. Qed.
Lemma norm2_sq v : norm2 v * norm2 v = dot v v.
Proof. apply sqrt_sqrt, dot_self_nonneg. Qed.
Lemma cauchy_schwarz u v : Rabs (dot u v) <= norm2 u * norm2 v.
Proof.
  pose proof (norm2_nonneg u). pose proof (norm2_nonneg v).
  apply Rsqr_incr_0_var; [|nra].
  rewrite <- Rsqr_abs. unfold Rsqr.
  replace (norm2 u * norm2 v * (norm2 u * norm2 v)) with ((norm2 u * norm2 u) * (norm2 v * norm2 v)) by ring.
  rewrite !norm2_sq. apply cauchy_sq.
Qed.
Lemma dot_le_norm u v : dot u v <= norm2 u * norm2 v.
Proof. pose proof (cauchy_schwarz u v). pose proof (Rle_abs (dot u v)). lra. Qed.
Lemma dot_ge_norm u v : - (norm2 u * norm2 v) <= dot u v.
Proof.
  pose proof (cauchy_schwarz u v). pose proof (Rle_abs (- dot u v)). rewrite Rabs_Ropp in H0. lra.
Qed.
Lemma norm2_smul a v : norm2 (smul a v) = Rabs a * norm2 v.
Proof.
  unfold norm2. rewrite dot_smul_l, dot_smul_r, <- Rmult_assoc.
  rewrite sqrt_mult; [|nra|apply dot_self_nonneg].
  f_equal. apply sqrt_Rsqr_abs.
Qed.
Lemma norm2_triangle a u b v : length u = length v ->
  norm2 (lin a u b v) <= Rabs a * norm2 u + Rabs b * norm2 v.
Proof.
  intro H.
  pose proof (norm2_nonneg u). pose proof (norm2_nonneg v).
  pose proof (Rabs_pos a). pose proof (Rabs_pos b).
  apply Rsqr_incr_0_var; [|nra]. unfold Rsqr. rewrite norm2_sq.
  rewrite dot_lin_l by len. rewrite !dot_lin_r by len.
  rewrite (dot_comm v u).
  assert (a * b * dot u v <= Rabs a * Rabs b * (norm2 u * norm2 v)).
  { rewrite <- Rabs_mult. pose proof (cauchy_schwarz u v).
    apply Rle_trans with (Rabs (a * b * dot u v)); [apply Rle_abs|].
    rewrite Rabs_mult. apply Rmult_le_compat_l; [apply Rabs_pos|auto]. }
  assert (a * a * dot u u = Rabs a * Rabs a * (norm2 u * norm2 u)).
  { rewrite norm2_sq. rewrite <- Rabs_mult. rewrite (Rabs_pos_eq (a*a)) by nra. ring. }
  assert (b * b * dot v v = Rabs b * Rabs b * (norm2 v * norm2 v)).
  { rewrite norm2_sq. rewrite <- Rabs_mult. rewrite (Rabs_pos_eq (b*b)) by nra. ring. }
  nra.
Qed.
Lemma norm2_zero_dot v : norm2 v = 0 -> dot v v = 0.
Proof. intro H. rewrite <- norm2_sq, H; ring. Qed.
Lemma norm2_le_sq u a : 0 <= a -> norm2 u <= a <-> dot u u <= a * a.
Proof.
  intro Ha. rewrite <- norm2_sq. pose proof (norm2_nonneg u). split; intro; nra.
Qed.

(** ** l1 norm *)
Lemma l1_nonneg v : 0 <= l1 v.
Proof. induction v; simpl; [lra|]. pose proof (Rabs_pos a); lra. Qed.
Lemma l1_app u v : l1 (u ++ v) = l1 u + l1 v.
Proof. induction u; simpl; [lra|]. rewrite IHu; lra. Qed.
Lemma Rsum_app u v : Rsum (u ++ v) = Rsum u + Rsum v.
Proof. induction u; simpl; [lra|]. rewrite IHu; lra. Qed.
Lemma l1_Rsum v : l1 v = Rsum (map Rabs v).
Proof. induction v; simpl; auto; rewrite IHv; auto. Qed.
Lemma l1_nonneg_sum v : Forall (fun t => 0 <= t) v -> l1 v = Rsum v.
Proof. induction 1; simpl; auto. rewrite IHForall, Rabs_pos_eq; auto. Qed.

(** ** the model's operations at RN *)
Lemma fold_left_Rplus l a : fold_left Rplus l a = a + Rsum l.
Proof. revert a; induction l; intro a0; simpl; [lra|]. rewrite IHl; lra. Qed.
Lemma vsum_R (v : list R) : @vsum RN v = Rsum v.
Proof. unfold vsum. change (@nadd RN) with Rplus. rn. rewrite fold_left_Rplus; lra. Qed.
Lemma vmul_sum u v : Rsum (map2 Rmult u v) = dot u v.
Proof. revert v; induction u; intros [|y v]; simpl; auto. rewrite IHu; auto. Qed.
Lemma vdot_R (u v : list R) : @vdot RN u v = dot u v.
Proof. unfold vdot. rewrite vsum_R. unfold vmul. rn. apply vmul_sum. Qed.
Lemma vnorm_R (v : list R) : @vnorm RN v = norm2 v.
Proof. unfold vnorm. rewrite vdot_R. reflexivity. Qed.
Lemma vabs_R (v : list R) : @vabs RN v = map Rabs v.
Proof. reflexivity. Qed.
Lemma vnorm1_R (v : list R) : @vnorm1 RN v = l1 v.
Proof. unfold vnorm1. rewrite vsum_R, vabs_R. symmetry; apply l1_Rsum. Qed.
Lemma map2_lin_sub u v : map2 Rminus u v = vminus u v.
Proof.
  unfold vminus. revert v; induction u; intros [|y v]; simpl; auto.
  rewrite IHu. f_equal. ring.
Qed.
Lemma map2_lin_add u v : map2 Rplus u v = vplus u v.
Proof.
  unfold vplus. revert v; induction u; intros [|y v]; simpl; auto.
  rewrite IHu. f_equal. ring.
Qed.
Lemma vsub_R (u v : list R) : @vsub RN u v = vminus u v.
Proof. apply map2_lin_sub. Qed.
Lemma vadd_R (u v : list R) : @vadd RN u v = vplus u v.
Proof. apply map2_lin_add. Qed.
Lemma vscale_R (c : R) (v : list R) : @vscale RN c v = smul c v.
Proof. reflexivity. Qed.
Lemma vzeros_R n : @vzeros RN n = zeros n.
Proof. reflexivity. Qed.
Lemma vopp_R v : @vopp RN v = smul (-1) v.
Proof. unfold vopp, smul. rn. apply map_ext. intro; ring. Qed.

(** Vector identities, coordinatewise. *)
Ltac veq_pt := repeat (first
   [ rewrite nth_vminus by len | rewrite nth_vplus by len | rewrite nth_lin by len
   | rewrite nth_smul | rewrite nth_zeros ]).
Ltac veq :=
  apply list_ext with (d := 0); [len | let i := fresh "i" in intros i _; veq_pt; try ring].

Lemma vminus_self u : vminus u u = zeros (length u).
Proof. veq. Qed.
