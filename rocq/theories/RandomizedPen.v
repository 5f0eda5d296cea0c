(** * Block penalties of the library: convexity and sums over the blocks; fixed points of SVRG *)
From Coq Require Import ZArith Bool List Lia Permutation Reals Lra.
From Verif Require Import Num Vec Spec SpecSparse RVec ConvexFacts ModelPenalty PenaltyFacts PenaltyFacts2 PenaltyFacts3 UtilsMain ProxGradMain SplittingRuns ModelRandomized SpecFiniteSum RandomizedFacts RandomizedBlocks RandomizedSaga RandomizedSvrg RandomizedVrtos RandomizedFix RandomizedProx.
Import ListNotations.
Local Open Scope R_scope.

Lemma l1_convexR n lam : 0 <= lam -> convex_on n (fun _ => True) (fun v => lam * l1 v).
Proof.
  intros Ha. split; [red; auto|]. intros u v t Lu Lv _ _ Ht.
  pose proof (l1_lin (1 - t) t u v ltac:(lia)) as H. rewrite !Rabs_pos_eq in H by lra.
  assert (lam * l1 (lin (1 - t) u t v) <= lam * ((1 - t) * l1 u + t * l1 v)) by (apply Rmult_le_compat_l; assumption). lra.
Qed.
Lemma norm2_convex n lam : 0 <= lam -> convex_on n (fun _ => True) (fun v => lam * norm2 v).
Proof.
  intros Ha. split; [red; auto|]. intros u v t Lu Lv _ _ Ht.
  pose proof (norm2_triangle (1 - t) u t v ltac:(lia)) as H. rewrite !Rabs_pos_eq in H by lra.
  assert (lam * norm2 (lin (1 - t) u t v) <= lam * ((1 - t) * norm2 u + t * norm2 v)) by (apply Rmult_le_compat_l; assumption). lra.
Qed.
Lemma tv_lin a b : forall u v : list R, length u = length v -> tv (lin a u b v) <= Rabs a * tv u + Rabs b * tv v.
Proof.
  induction u as [|p u IH]; intros [|q v] L; try discriminate L; [cbn; lra|].
  assert (L' : length u = length v) by (cbn in L; lia). specialize (IH v L').
  destruct u as [|p' u]; destruct v as [|q' v]; try discriminate L'; [cbn; lra|].
  change (tv (lin a (p :: p' :: u) b (q :: q' :: v))) with (Rabs ((a * p' + b * q') - (a * p + b * q)) + tv (lin a (p' :: u) b (q' :: v))).
  change (tv (p :: p' :: u)) with (Rabs (p' - p) + tv (p' :: u)). change (tv (q :: q' :: v)) with (Rabs (q' - q) + tv (q' :: v)).
  pose proof (Rabs_triang (a * (p' - p)) (b * (q' - q))) as T. rewrite !Rabs_mult in T.
  replace (a * p' + b * q' - (a * p + b * q)) with (a * (p' - p) + b * (q' - q)) by ring. lra.
Qed.
Lemma tv_convex n lam : 0 <= lam -> convex_on n (fun _ => True) (fun v => lam * tv v).
Proof.
  intros Ha. split; [red; auto|]. intros u v t Lu Lv _ _ Ht.
  pose proof (tv_lin (1 - t) t u v ltac:(lia)) as H. rewrite !Rabs_pos_eq in H by lra.
  assert (lam * tv (lin (1 - t) u t v) <= lam * ((1 - t) * tv u + t * tv v)) by (apply Rmult_le_compat_l; assumption). lra.
Qed.
(** ** sums over blocks *)
Lemma l1_seq (v : list R) : l1 v = Rsum (map (fun j => Rabs (nth j v 0)) (seq 0 (length v))).
Proof.
  induction v as [|a v IH]; [reflexivity|]. cbn [l1 length seq map Rsum nth]. rewrite <- seq_shift, map_map. rewrite IH. reflexivity.
Qed.
Lemma l1_blocks d lam (x : list R) : length x = d -> block_penalty (eye_ptr d) (fun _ v => lam * l1 v) x = lam * l1 x.
Proof.
  intros L. unfold block_penalty. assert (E : (length (eye_ptr d) - 1 = d)%nat) by (unfold eye_ptr; rewrite seq_length; lia). rewrite E, l1_seq, L.
  rewrite <- Rsum_map_mult. apply Rsum_map_ext. intros h Hh. apply in_seq in Hh. rewrite blk_eye by lia. cbn. lra.
Qed.
Definition tvt (v : list R) (j : nat) : R := if Nat.ltb (S j) (length v) then Rabs (nth (S j) v 0 - nth j v 0) else 0.
Lemma tv_seq (v : list R) : tv v = Rsum (map (tvt v) (seq 0 (length v))).
Proof.
  induction v as [|a v IH]; [reflexivity|]. destruct v as [|b v]; [cbn; lra|].
  change (tv (a :: b :: v)) with (Rabs (b - a) + tv (b :: v)). rewrite IH. cbn [length]. cbn [seq map Rsum].
  f_equal. rewrite <- (seq_shift (length v) 1). rewrite map_map. reflexivity.
Qed.
Definition pair_at (ptr : list nat) (v : list R) (j : nat) : R :=
  if Nat.eqb (nth j (rblocks ptr) 0%nat) (nth (S j) (rblocks ptr) 0%nat) then tvt v j else 0.
Lemma tv_blocks_pairs d ptr (x : list R) : partitions ptr d -> length x = d ->
  (forall h, (S h < length ptr)%nat -> exists j, blk ptr h = [j] \/ blk ptr h = [j; S j]) ->
  Rsum (map (fun h => tv (sub x (blk ptr h))) (seq 0 (length ptr - 1))) = Rsum (map (pair_at ptr x) (seq 0 d)).
Proof.
  intros Hq L Hb. rewrite <- (Rsum_blocks d ptr Hq (pair_at ptr x)). apply Rsum_map_ext. intros h Hh. apply in_seq in Hh.
  destruct (Hb h ltac:(lia)) as (j & [E|E]).
  - rewrite E. cbn [sub map tv Rsum]. unfold pair_at. assert (Ej : nth j (rblocks ptr) 0%nat = h) by (apply (rblocks_in _ d _ _ Hq); [lia|rewrite E; left; reflexivity]).
    rewrite Ej. destruct (Nat.eqb_spec h (nth (S j) (rblocks ptr) 0%nat)) as [Eq|N]; [|lra]. unfold tvt. destruct (Nat.ltb_spec (S j) (length x)) as [H|H]; [|lra].
    exfalso. assert (Hin : In (S j) (blk ptr h)). { rewrite Eq. apply (rblocks_spec ptr d (S j) Hq). lia. }
    rewrite E in Hin. cbn in Hin. lia.
  - rewrite E. assert (Ej : nth j (rblocks ptr) 0%nat = h) by (apply (rblocks_in _ d _ _ Hq); [lia|rewrite E; left; reflexivity]).
    assert (Ej' : nth (S j) (rblocks ptr) 0%nat = h) by (apply (rblocks_in _ d _ _ Hq); [lia|rewrite E; right; left; reflexivity]).
    assert (Hj : (S j < d)%nat) by (apply (blk_in_lt ptr d h _ Hq); [lia|rewrite E; right; left; reflexivity]).
    cbn [sub map tv Rsum]. unfold pair_at. rewrite Ej, Ej', Nat.eqb_refl. unfold tvt at 1. rewrite (proj2 (Nat.ltb_lt (S j) (length x))) by lia.
    destruct (Nat.eqb_spec h (nth (S (S j)) (rblocks ptr) 0%nat)) as [Eq|N]; [|lra]. unfold tvt. destruct (Nat.ltb_spec (S (S j)) (length x)) as [H|H]; [|lra].
    exfalso. assert (Hin : In (S (S j)) (blk ptr h)). { rewrite Eq. apply (rblocks_spec ptr d (S (S j)) Hq). lia. }
    rewrite E in Hin. cbn in Hin. lia.
Qed.
Lemma pair_iff d ptr j : partitions ptr d -> (S j < d)%nat ->
  (forall h, (S h < length ptr)%nat -> exists j, blk ptr h = [j] \/ blk ptr h = [j; S j]) ->
  nth j (rblocks ptr) 0%nat = nth (S j) (rblocks ptr) 0%nat <-> is_pair ptr j.
Proof.
  intros Hq Hj Hb. pose proof (rblocks_spec ptr d j Hq ltac:(lia)) as (A1 & A2). pose proof (rblocks_spec ptr d (S j) Hq Hj) as (A3 & A4). split.
  - intros E. exists (nth j (rblocks ptr) 0%nat). split; [exact A1|]. rewrite <- E in A4. destruct (Hb _ A1) as (k & [Ek|Ek]); rewrite Ek in *; cbn in A2, A4.
    + lia.
    + assert (k = j) by lia. subst k. reflexivity.
  - intros (h & Hh & E). rewrite !(rblocks_in ptr d h) by (auto; rewrite E; cbn; auto). reflexivity.
Qed.
(** the pairs of the two structures of FusedLasso.prox_1_factory and prox_2_factory are all the pairs *)
Lemma fused_blocks_tv d data1 ptr1 data2 ptr2 lam (x : list R) : fused_blocks_1 d = Ok (data1, ptr1) -> fused_blocks_2 d = Ok (data2, ptr2) ->
  (1 <= d)%nat -> length x = d ->
  block_penalty ptr1 (fun _ v => lam * tv v) x + block_penalty ptr2 (fun _ v => lam * tv v) x = lam * tv x.
Proof.
  intros F1 F2 Hd L. destruct (fused_structs d Hd) as (d1 & p1 & d2 & p2 & E1 & E2 & L1 & L2 & _ & _ & A1 & A2 & B1 & B2 & X).
  rewrite E1 in F1. rewrite E2 in F2. injection F1 as <- <-. injection F2 as <- <-.
  assert (G1 : forall h, (S h < length p1)%nat -> exists j, blk p1 h = [j] \/ blk p1 h = [j; S j]) by (intros h Hh; destruct (B1 h Hh) as (j & [(E & _)|(E & _)]); eauto).
  assert (G2 : forall h, (S h < length p2)%nat -> exists j, blk p2 h = [j] \/ blk p2 h = [j; S j]) by (intros h Hh; destruct (B2 h Hh) as (j & [(E & _)|(E & _)]); eauto).
  unfold block_penalty. rewrite (Rsum_map_mult (fun h => tv (sub x (blk p1 h))) lam), (Rsum_map_mult (fun h => tv (sub x (blk p2 h))) lam).
  rewrite (tv_blocks_pairs d p1 x A1 L G1), (tv_blocks_pairs d p2 x A2 L G2), <- Rmult_plus_distr_l. f_equal.
  rewrite <- Rsum_map_plus, tv_seq, L. apply Rsum_map_ext. intros j Hj. apply in_seq in Hj. unfold pair_at.
  destruct (Nat.lt_ge_cases (S j) d) as [H|H].
  - destruct (X j H) as [(Y1 & N2)|(N1 & Y2)].
    + rewrite (proj2 (Nat.eqb_eq _ _)) by (apply (pair_iff d p1 j A1 H G1); exact Y1).
      rewrite (proj2 (Nat.eqb_neq _ _)) by (intros E; apply N2, (pair_iff d p2 j A2 H G2), E). lra.
    + rewrite (proj2 (Nat.eqb_eq (nth j (rblocks p2) 0%nat) _)) by (apply (pair_iff d p2 j A2 H G2); exact Y2).
      rewrite (proj2 (Nat.eqb_neq _ _)) by (intros E; apply N1, (pair_iff d p1 j A1 H G1), E). lra.
  - assert (Z : tvt x j = 0) by (unfold tvt; rewrite (proj2 (Nat.ltb_ge _ _)) by lia; reflexivity). rewrite Z. destruct (Nat.eqb _ _), (Nat.eqb _ _); lra.
Qed.

(** ** fixed points of SVRG *)
Section Svrg.
Variable P : problem RN.
Hypothesis HP : problem_wf P.
Let n := p_n P.
Let d := p_d P.
Lemma svrg_fixed ptr B g prox step (x tmp gavg : list R) f : partitions ptr d -> make_blocks P ptr = Ok B ->
  (forall h, (S h < length ptr)%nat -> convex_on (length (blk ptr h)) (fun _ => True) (g h)) ->
  sparse_prox_of P ptr B g prox -> 0 < step -> convex_loss P f -> 0 <= p_alpha P -> (0 < n)%nat ->
  length x = d -> length tmp = d -> full_grad P x = Ok gavg ->
  (forall i j, (i < n)%nat -> ext P ptr i j -> ~ In j (prow P i) -> nth j tmp 0 = 0) ->
  (forall i, (i < n)%nat -> exists s', svrg_sample P B prox step x gavg i (x, tmp) = Ok s' /\ fst s' = x) ->
  forall y : list R, length y = d -> (forall j, (j < d)%nat -> ~ touched P ptr j -> nth j y 0 = nth j x 0) ->
  finite_sum P f x + block_penalty ptr g x <= finite_sum P f y + block_penalty ptr g y.
Proof.
  intros Hq EB Hg Hs Hst Hf Ha Hn Lx Lt Eg Ht Hfix y Ly Hy.
  destruct (full_grad_R P HP x Lx) as (gavg' & Eg' & Lg & Vg).
  assert (gavg' = gavg) by (apply Ok_inj; eapply eq_trans; [symmetry; exact Eg'|exact Eg]). subst gavg'.
  set (s := mkSaga (K:=RN) x (map (loss_deriv P x) (seq 0 n)) gavg (zeros d)).
  assert (Hmem : forall i, (i < n)%nat -> nth i (sa_mem s) 0 = loss_deriv P x i).
  { intros i Hi. cbn [s sa_mem]. apply nth_mapseq. exact Hi. }
  assert (Ls : saga_len P s).
  { unfold saga_len; cbn [s sa_x sa_mem sa_avg sa_tmp]. rewrite map_length, seq_length, zeros_length. auto. }
  assert (Is : saga_inv P s).
  { split; [|reflexivity]. intros j Hj. cbn [s sa_avg]. eapply eq_trans; [apply Vg; exact Hj|]. unfold grad_F, mean_row. f_equal.
    apply Rsum_map_ext. intros i Hi. apply in_seq in Hi. rewrite Hmem by (unfold n; lia). reflexivity. }
  apply (saga_fixed P HP ptr B g prox step s f); auto.
  intros i Hi. destruct (Hfix i Hi) as (s' & E & Ex).
  destruct (saga_sample_eq P HP ptr Hq B EB prox step i s Hi Ls) as (p & x1 & avg' & tmp' & Ep & L1 & La & Lt' & V1 & V2 & _ & _ & E1).
  destruct (svrg_sample_eq P HP ptr Hq B EB prox step x gavg i x tmp Hi Lx Lg Lx Lt) as (p' & q' & x1' & tmp'' & Ep' & Eq' & L1' & Lt'' & _ & V1' & V2' & E2).
  assert (Hp : p = adot P i x) by (apply Ok_inj; eapply eq_trans; [symmetry; exact Ep|apply (row_dot_R P HP i x Hi Lx)]).
  assert (Hp' : p' = adot P i x) by (apply Ok_inj; eapply eq_trans; [symmetry; exact Ep'|apply (row_dot_R P HP i x Hi Lx)]).
  assert (Hq' : q' = adot P i x) by (apply Ok_inj; eapply eq_trans; [symmetry; exact Eq'|apply (row_dot_R P HP i x Hi Lx)]).
  assert (X : x1 = x1').
  { apply (list_ext x1 x1' 0); [eqR; congruence|]. intros j Hj. destruct (ext_dec P ptr i j) as [Y|N].
    - eapply eq_trans; [apply (V1 j Y)|]. symmetry. eapply eq_trans; [apply (V1' j Y)|]. rn. cbn [s sa_x sa_avg].
      assert (T : tmp_val P i (nsub RN (p_fd P p' (nth i (p_b P) n0)) (p_fd P q' (nth i (p_b P) n0))) tmp j = tmp_val P i (nsub RN (p_fd P p (nth i (p_b P) n0)) (nth i (sa_mem s) n0)) (sa_tmp s) j).
      { unfold tmp_val. destruct (in_dec Nat.eq_dec j (prow P i)) as [Hr|Hr].
        - rewrite (kfold_const P i j _ 0 _ Hr), (kfold_const P i j _ 0 _ Hr); [reflexivity| |]; intros; rn; [rewrite Hmem by exact Hi; rewrite Hp|rewrite Hp', Hq']; unfold loss_deriv; rn; ring.
        - rewrite !kfold_out by exact Hr. rn. cbn [s sa_tmp]. rewrite nth_zeros. apply (Ht i j Hi Y Hr). }
      rn. rewrite T. reflexivity.
    - eapply eq_trans; [apply (V2 j N)|]. symmetry. apply (V2' j N). }
  subst x1'. assert (E3 := eq_trans (eq_sym E2) E). apply bind_ok in E3 as (x2 & Px & E3). apply Ok_inj in E3. subst s'. cbn [fst] in Ex. subst x2.
  eexists. split; [eapply eq_trans; [exact E1|]; eapply eq_trans; [apply (f_equal (fun r => bind r _) Px)|]; cbn [bind]; reflexivity|]. reflexivity.
Qed.
End Svrg.
Lemma group_convex (ptr : list nat) alpha groups h : 0 <= alpha ->
  convex_on (length (blk ptr h)) (fun _ => True) (fun v => if existsb (fun g => if list_eq_dec Nat.eq_dec (map Z.to_nat g) (blk ptr h) then true else false) groups then alpha * norm2 v else 0).
Proof. intros Ha. destruct (existsb _ groups); [apply norm2_convex, Ha|apply zero_convex]. Qed.
