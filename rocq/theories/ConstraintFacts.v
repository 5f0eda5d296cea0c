(** * Proofs about the vector constraints (exact reals) *)
From Coq Require Import Reals Lra Lia List Bool Permutation Sorted.
From Verif Require Import Num Vec Spec RVec ModelConstraint.
Import ListNotations.
Open Scope R_scope.

(** ** LinfBall *)
Lemma nclip_R (a x : R) : 0 <= a ->
  @nclip RN (- a) a x = (if Rltb x (-a) then - a else if Rltb a x then a else x).
Proof.
  intros Ha; unfold nclip; rn.
  rcase; rcase; try rcase; lra.
Qed.

Lemma linf_prox_in (a : R) (x : list R) : 0 <= a -> linf_ball a (@linf_prox RN a x).
Proof.
  intros Ha; unfold linf_ball, linf_prox; rn. apply Forall_map, Forall_forall; intros t _.
  rewrite (nclip_R _ t Ha). apply Rabs_le. repeat rcase; lra.
Qed.

Lemma linf_prox_vi (a : R) (x : list R) (y : list R) : 0 <= a -> length y = length x -> linf_ball a y ->
  dot (vminus x (@linf_prox RN a x)) (vminus y (@linf_prox RN a x)) <= 0.
Proof.
  intros Ha; revert y; induction x as [|t x IH]; intros [|s y]; simpl; try lra; try lia.
  intros Hl Hy. inversion Hy as [|? ? Hs Hy']; subst.
  fold (@linf_prox RN a x). specialize (IH y ltac:(lia) Hy').
  unfold vminus in *. cbn [lin dot]. rewrite (nclip_R _ t Ha).
  apply Rabs_def2_le in Hs || idtac.
  assert (- a <= s <= a) by (unfold Rabs in Hs; destruct (Rcase_abs s); lra).
  assert ((1 * t + -1 * (if Rltb t (-a) then - a else if Rltb a t then a else t)) *
     (1 * s + -1 * (if Rltb t (-a) then - a else if Rltb a t then a else t)) <= 0).
  { repeat rcase; nra. }
  rn; lra.
Qed.

Lemma linf_prox_projection (a : R) (x : list R) : 0 <= a -> is_projection (linf_ball a) x (@linf_prox RN a x).
Proof.
  intros Ha; apply projection_intro.
  - unfold linf_prox; rewrite map_length; reflexivity.
  - apply linf_prox_in, Ha.
  - intros y Hl Hy; apply linf_prox_vi; assumption.
Qed.

(** ** L2Ball *)
Lemma sumsq_R (x : list R) : @vsum RN (map (@nsq RN) x) = dot x x.
Proof.
  rewrite vsum_R. unfold nsq; rn. induction x as [|t x IH]; simpl; [reflexivity|].
  rewrite IH; lra.
Qed.

Lemma l2_prox_R (a : R) (x : list R) : @l2_prox RN a x = if Rleb (norm2 x) a then x else smul (a / norm2 x) x.
Proof.
  unfold l2_prox. rewrite sumsq_R. rn. fold (norm2 x).
  rcase; [reflexivity|]. unfold smul. apply map_ext; intros t. unfold Rdiv; ring.
Qed.

Lemma l2_prox_projection (a : R) (x : list R) : 0 <= a -> is_projection (l2_ball a) x (@l2_prox RN a x).
Proof.
  intros Ha. rewrite l2_prox_R.
  pose proof (norm2_nonneg x) as Hn.
  destruct (Rleb_spec (norm2 x) a) as [Hle|Hgt].
  - apply projection_intro; [reflexivity|exact Hle|].
    intros y Hl _. apply Req_le. replace (vminus x x) with (zeros (length x)).
    + apply dot_zeros_l.
    + symmetry; apply vminus_self.
  - set (c := a / norm2 x).
    assert (Hc : 0 <= c <= 1).
    { unfold c; split.
      - apply Rmult_le_pos; [lra|]. left; apply Rinv_0_lt_compat; lra.
      - apply Rmult_le_reg_r with (norm2 x); [lra|]. unfold Rdiv.
        rewrite Rmult_assoc, Rinv_l by lra. lra. }
    assert (Hcn : c * norm2 x = a) by (unfold c; field; lra).
    apply projection_intro.
    + apply smul_length.
    + unfold l2_ball. rewrite norm2_smul, Rabs_right by lra. lra.
    + intros y Hl Hy.
      replace (vminus x (smul c x)) with (smul (1 - c) x).
      2:{ veq. }
      rewrite dot_smul_l. unfold vminus. rewrite dot_lin_r by (rewrite ?smul_length; lia).
      rewrite dot_smul_r. pose proof (dot_le_norm x y) as Hcs. unfold l2_ball in Hy.
      rewrite <- norm2_sq.
      assert (norm2 x * norm2 y <= norm2 x * a) by (apply Rmult_le_compat_l; lra).
      replace (1 * dot x y + -1 * (c * (norm2 x * norm2 x))) with (dot x y - norm2 x * (c * norm2 x)) by ring.
      rewrite Hcn.
      assert (0 <= (1 - c)) by lra.
      apply Rle_trans with ((1 - c) * 0); [apply Rmult_le_compat_l; lra|lra].
Qed.

Lemma l2_prox_inside (a : R) (x : list R) : norm2 x <= a -> @l2_prox RN a x = x.
Proof. intros H; rewrite l2_prox_R, Rleb_true by exact H; reflexivity. Qed.

(** ** Simplex projection *)
Lemma insert_desc_perm (x : R) (l : list R) : Permutation (@insert_desc RN x l) (x :: l).
Proof.
  induction l as [|y l IH]; simpl; [reflexivity|].
  destruct (Rltb x y); [|reflexivity].
  rewrite IH. apply perm_swap.
Qed.
Lemma sort_desc_perm (v : list R) : Permutation (@sort_desc RN v) v.
Proof.
  induction v as [|x v IH]; simpl; [reflexivity|].
  rewrite insert_desc_perm, IH; reflexivity.
Qed.
Lemma insert_desc_sorted (x : R) (l : list R) : StronglySorted Rge l -> StronglySorted Rge (@insert_desc RN x l).
Proof.
  induction l as [|y l IH]; simpl; intros Hs.
  - constructor; constructor.
  - rn. inversion Hs as [|? ? Hs' Hf]; subst. rcase.
    + constructor; [apply IH, Hs'|].
      eapply Permutation_Forall; [apply Permutation_sym, insert_desc_perm|].
      constructor; [lra|exact Hf].
    + constructor; [exact Hs|]. constructor; [lra|].
      eapply Forall_impl; [|exact Hf]. simpl; intros; lra.
Qed.
Lemma sort_desc_sorted (v : list R) : StronglySorted Rge (@sort_desc RN v).
Proof. induction v as [|x v IH]; simpl; [constructor|apply insert_desc_sorted, IH]. Qed.

Lemma ss_split u k : StronglySorted Rge u -> (k < length u)%nat ->
  Forall (fun t => nth k u 0 <= t) (firstn (S k) u) /\
  Forall (fun t => t <= nth k u 0) (skipn k u).
Proof.
  revert k; induction u as [|a u IH]; intros k Hs Hk; simpl in Hk; [lia|].
  inversion Hs as [|? ? Hs' Hf]; subst. destruct k as [|k].
  - simpl. split; [repeat constructor; lra|]. constructor; [lra|].
    eapply Forall_impl; [|exact Hf]; simpl; intros; lra.
  - destruct (IH k Hs' ltac:(lia)) as [H1 H2]. cbn [firstn skipn nth]. split; [|exact H2].
    constructor; [|exact H1]. rewrite Forall_forall in Hf.
    assert (Hin : In (nth k u 0) u) by (apply nth_In; lia).
    specialize (Hf _ Hin). lra.
Qed.

Lemma cumsum_from_length (c : R) (v : list R) : length (@cumsum_from RN c v) = length v.
Proof. revert c; induction v as [|x v IH]; intros c; simpl; [|rewrite IH]; reflexivity. Qed.
Lemma nth_cumsum_from (c : R) (v : list R) (i : nat) : (i < length v)%nat ->
  nth i (@cumsum_from RN c v) 0 = c + Rsum (firstn (S i) v).
Proof.
  revert c i; induction v as [|x v IH]; intros c [|i] Hi; simpl in *; try lia.
  - rn; lra.
  - rewrite IH by lia. rn. simpl. lra.
Qed.
Lemma cumsum_length (v : list R) : length (@cumsum RN v) = length v.
Proof. destruct v; simpl; [reflexivity|]. rewrite cumsum_from_length; reflexivity. Qed.
Lemma nth_cumsum (v : list R) (i : nat) : (i < length v)%nat ->
  nth i (@cumsum RN v) 0 = Rsum (firstn (S i) v).
Proof.
  destruct v as [|x v]; simpl; [lia|]. intros Hi. destruct i as [|i]; [simpl; lra|].
  rewrite nth_cumsum_from by lia. reflexivity.
Qed.

Lemma last_true_from_spec mask : forall i best,
  match last_true_from i mask best with
  | Some r => (best = Some r /\ forall j, nth j mask false = false) \/
              (i <= r < i + length mask)%nat /\ nth (r - i) mask false = true /\
              (forall j, (r - i < j)%nat -> nth j mask false = false)
  | None => best = None /\ forall j, nth j mask false = false
  end.
Proof.
  induction mask as [|b mask IH]; intros i best; simpl.
  - destruct best; [left|]; split; try reflexivity; intros [|j]; reflexivity.
  - specialize (IH (S i) (if b then Some i else best)).
    destruct (last_true_from (S i) mask (if b then Some i else best)) as [r|].
    + destruct IH as [[Hb Hn]|(Hr & Ht & Hn)].
      * destruct b.
        -- inversion Hb; subst. right. rewrite Nat.sub_diag. repeat split; try lia.
           intros [|j] Hj; [lia|apply Hn].
        -- left; split; [exact Hb|]. intros [|j]; [reflexivity|apply Hn].
      * right. replace (r - i)%nat with (S (r - S i)) by lia. repeat split; try lia.
        -- exact Ht.
        -- intros [|j] Hj; [lia|]. apply Hn; lia.
    + destruct IH as [Hb Hn]. destruct b; [discriminate|]. split; [exact Hb|].
      intros [|j]; [reflexivity|apply Hn].
Qed.

Lemma rho_mask_nth (k : nat) (s : R) (u : list R) (cs : list R) : forall j, length cs = length u -> (j < length u)%nat ->
  nth j (@rho_mask_from RN k s u cs) false = Rltb (nth j cs 0 - s) (nth j u 0 * INR (S (k + j))).
Proof.
  revert k cs; induction u as [|a u IH]; intros k [|c cs] [|j] Hl Hj; simpl in Hl, Hj; try lia.
  - cbn [rho_mask_from nth]. rewrite nofnat_R. rn. rewrite Nat.add_0_r. reflexivity.
  - cbn [rho_mask_from nth]. rewrite IH by lia. do 3 f_equal. lia.
Qed.
Lemma rho_mask_length (k : nat) (s : R) (u : list R) (cs : list R) : length cs = length u -> length (@rho_mask_from RN k s u cs) = length u.
Proof.
  revert k cs; induction u as [|a u IH]; intros k [|c cs] Hl; simpl in *; try lia.
  rewrite IH; lia.
Qed.

Definition soft (theta t : R) : R := Rmax (t - theta) 0.

Lemma Rsum_perm u v : Permutation u v -> Rsum u = Rsum v.
Proof. induction 1; simpl; lra. Qed.
Lemma soft_sum_zero theta l : Forall (fun t => t <= theta) l -> Rsum (map (soft theta) l) = 0.
Proof.
  induction 1 as [|t l Ht _ IH]; simpl; [reflexivity|].
  rewrite IH. unfold soft. rewrite Rmax_right by lra. lra.
Qed.
Lemma soft_sum_all theta l : Forall (fun t => theta <= t) l ->
  Rsum (map (soft theta) l) = Rsum l - INR (length l) * theta.
Proof.
  induction 1 as [|t l Ht _ IH]; [simpl; lra|]. cbn [map Rsum length].
  rewrite IH, S_INR. unfold soft. rewrite Rmax_left by lra. lra.
Qed.

Lemma proj_simplex_char (v : list R) (s : R) : v <> [] -> 0 < s ->
  exists theta, @proj_simplex RN v s = Ok (map (soft theta) v) /\ Rsum (map (soft theta) v) = s.
Proof.
  intros Hv Hs. unfold proj_simplex. rn. rewrite (Rltb_true 0 s) by lra. cbn [negb].
  rewrite vsum_R.
  destruct (Reqb (Rsum v) s && forallb (fun t => Rleb 0 t) v) eqn:Hearly.
  - apply andb_true_iff in Hearly as [Hsum Hall].
    apply Reqb_iff in Hsum. rewrite forallb_forall in Hall.
    exists 0. assert (Hid : map (soft 0) v = v).
    { rewrite <- (map_id v) at 2. apply map_ext_in; intros t Ht. unfold soft.
      specialize (Hall t Ht). apply Rleb_iff in Hall. rewrite Rmax_left by lra. lra. }
    rewrite Hid. split; [reflexivity|exact Hsum].
  - clear Hearly.
    set (u := @sort_desc RN v) in *.
    assert (Hp : Permutation u v) by apply sort_desc_perm.
    assert (Hss : StronglySorted Rge u) by apply sort_desc_sorted.
    assert (Hul : (0 < length u)%nat).
    { rewrite (Permutation_length Hp). destruct v; [congruence|simpl; lia]. }
    clearbody u. rn.
    set (mask := @rho_mask_from RN 0 s u (@cumsum RN u)).
    assert (Hm : forall j, (j < length u)%nat ->
       nth j mask false = Rltb (Rsum (firstn (S j) u) - s) (nth j u 0 * INR (S j))).
    { intros j Hj. unfold mask. rewrite rho_mask_nth by (rewrite ?cumsum_length; lia).
      rewrite nth_cumsum by lia. reflexivity. }
    assert (Hml : length mask = length u) by (apply rho_mask_length, cumsum_length).
    unfold last_true. pose proof (last_true_from_spec mask 0 None) as Hspec.
    assert (H0 : nth 0 mask false = true).
    { rewrite Hm by lia. apply Rltb_true. destruct u; simpl in *; [lia|]. lra. }
    destruct (last_true_from 0 mask None) as [rho|].
    2:{ destruct Hspec as [_ Hn]. rewrite Hn in H0; discriminate. }
    destruct Hspec as [[Hb _]|(Hr & Ht & Hn)]; [discriminate|].
    rewrite Nat.sub_0_r in *. cbn [bind].
    rewrite (get_ok _ _ 0) by (rewrite cumsum_length; lia). cbn [bind].
    rewrite nth_cumsum by lia. rewrite nofnat_R.
    rewrite Hm in Ht by lia. apply Rltb_iff in Ht. rewrite S_INR in Ht.
    set (theta := (Rsum (firstn (S rho) u) - s) / (INR rho + 1)).
    pose proof (pos_INR rho) as Hrp.
    assert (Hth : theta * (INR rho + 1) = Rsum (firstn (S rho) u) - s) by (unfold theta; field; lra).
    exists theta. split.
    + f_equal. apply map_ext; intros t. unfold soft, Rmax.
      destruct (Rle_dec (t - theta) 0); rcase; lra.
    + rewrite <- (Rsum_perm (map (soft theta) u)) by (apply Permutation_map, Hp).
      rewrite <- (firstn_skipn (S rho) u), map_app, Rsum_app.
      destruct (ss_split u rho Hss ltac:(lia)) as [Hhi _].
      rewrite soft_sum_all.
      2:{ eapply Forall_impl; [|exact Hhi]. simpl; intros t Hge.
          assert (theta * (INR rho + 1) <= nth rho u 0 * (INR rho + 1)) by lra.
          apply Rmult_le_reg_r in H; lra. }
      rewrite firstn_length_le by lia. rewrite S_INR.
      rewrite soft_sum_zero; [lra|].
      destruct (Nat.eq_dec (S rho) (length u)) as [He|Hne].
      { rewrite skipn_all2 by lia. constructor. }
      destruct (ss_split u (S rho) Hss ltac:(lia)) as [_ Hlo].
      eapply Forall_impl; [|exact Hlo]. simpl; intros t Hle.
      specialize (Hn (S rho) ltac:(lia)). rewrite Hm in Hn by lia.
      assert (Hc : nth (S rho) u 0 * INR (S (S rho)) <= Rsum (firstn (S (S rho)) u) - s).
      { destruct (Rltb_spec (Rsum (firstn (S (S rho)) u) - s) (nth (S rho) u 0 * INR (S (S rho)))); [congruence|lra]. }
      assert (Hf : Rsum (firstn (S (S rho)) u) = Rsum (firstn (S rho) u) + nth (S rho) u 0).
      { clear - Hne Hr Hml. assert (Hx : (S rho < length u)%nat) by lia. clear Hne Hr Hml.
        revert Hx. generalize (S rho) as k. clear rho mask. induction u as [|a u IH]; intros k Hk; simpl in Hk; [lia|].
        destruct k; [simpl; lra|]. cbn [firstn Rsum nth].
        specialize (IH k ltac:(lia)). cbn [firstn Rsum] in IH. lra. }
      rewrite !S_INR in Hc.
      assert (nth (S rho) u 0 * (INR rho + 1) <= theta * (INR rho + 1)) by lra.
      apply Rmult_le_reg_r in H; lra.
Qed.

Lemma soft_vi theta v y : length y = length v -> Forall (fun t => 0 <= t) y ->
  dot (vminus v (map (soft theta) v)) (vminus y (map (soft theta) v))
  <= theta * Rsum y - theta * Rsum (map (soft theta) v).
Proof.
  revert y; induction v as [|t v IH]; intros [|z y] Hl Hy; simpl in Hl; try lia.
  - unfold vminus; simpl; lra.
  - inversion Hy; subst. specialize (IH y ltac:(lia) ltac:(assumption)).
    unfold vminus in *. cbn [lin dot map Rsum].
    assert ((1 * t + -1 * soft theta t) * (1 * z + -1 * soft theta t) <= theta * z - theta * soft theta t).
    { unfold soft, Rmax. destruct (Rle_dec (t - theta) 0); nra. }
    lra.
Qed.
Lemma soft_nonneg theta v : Forall (fun t => 0 <= t) (map (soft theta) v).
Proof. apply Forall_map, Forall_forall; intros t _. apply Rmax_r. Qed.

Lemma proj_simplex_correct (v : list R) (s : R) : v <> [] -> 0 < s ->
  exists w, @proj_simplex RN v s = Ok w /\ is_projection (simplex s) v w.
Proof.
  intros Hv Hs. destruct (proj_simplex_char v s Hv Hs) as (theta & He & Hsum).
  eexists; split; [exact He|]. apply projection_intro.
  - apply map_length.
  - split; [apply soft_nonneg|exact Hsum].
  - intros y Hl [Hy Hsy]. pose proof (soft_vi theta v y Hl Hy). rewrite Hsum, Hsy in H. lra.
Qed.

Lemma proj_simplex_bad_s (K : Num) (v : vec K) (s : K) :
  nltb K n0 s = false -> proj_simplex v s = Err AssertionError.
Proof. intros H; unfold proj_simplex; rewrite H; reflexivity. Qed.

Lemma proj_simplex_empty s : 0 < s -> @proj_simplex RN [] s = Err IndexError.
Proof.
  intros Hs. unfold proj_simplex. rn. rewrite (Rltb_true 0 s) by lra. simpl. rn.
  unfold vsum; simpl; rn. destruct (Reqb_spec 0 s); [lra|reflexivity].
Qed.

(** ** l1 ball *)
Lemma nsign_R (t : R) : @nsign RN t = if Rltb 0 t then 1 else if Rltb t 0 then -1 else 0.
Proof. unfold nsign; rn. repeat rcase; lra. Qed.

Lemma proj_l1ball_correct (v : list R) (s : R) : 0 < s ->
  exists w, @proj_l1ball RN v s = Ok w /\ is_projection (l1_ball s) v w /\ (l1 v <= s -> w = v).
Proof.
  intros Hs. unfold proj_l1ball. rn. rewrite (Rltb_true 0 s) by lra. cbn [negb].
  rewrite vsum_R, vabs_R, <- l1_Rsum. destruct (Rleb_spec (l1 v) s) as [Hin|Hout].
  - exists v. split; [reflexivity|]. split; [|reflexivity].
    apply projection_intro; [reflexivity|exact Hin|].
    intros y Hl _. apply Req_le.
    clear -Hl; revert y Hl; unfold vminus; induction v as [|t v IH]; intros [|z y] Hl; simpl in *; try lia; try lra.
    rewrite IH by lia; lra.
  - assert (Hne : map Rabs v <> []) by (destruct v; simpl in *; [lra|discriminate]).
    destruct (proj_simplex_char (map Rabs v) s Hne Hs) as (theta & He & Hsum).
    rewrite He. cbn [bind]. eexists; split; [reflexivity|]. split; [|lra].
    assert (Hth : 0 <= theta).
    { destruct (Rle_dec 0 theta) as [|Hneg]; [assumption|exfalso].
      assert (Rsum (map (soft theta) (map Rabs v)) >= Rsum (map Rabs v)).
      { clear - Hneg. induction v as [|t v IH]; simpl; [lra|].
        unfold soft at 1. pose proof (Rmax_l (Rabs t - theta) 0). lra. }
      rewrite l1_Rsum in Hout. lra. }
    set (w := map2 Rmult (map (soft theta) (map Rabs v)) (map (@nsign RN) v)).
    assert (Hw : w = map (fun t => soft theta (Rabs t) * @nsign RN t) v).
    { unfold w. clear. induction v as [|t v IH]; simpl; [reflexivity|]. apply f_equal, IH. }
    change (@map2 (carrier RN) (carrier RN) (carrier RN)) with (@map2 R R R). rn. fold w. rewrite Hw.
    assert (Hpt : forall t, Rabs (soft theta (Rabs t) * @nsign RN t) = soft theta (Rabs t)).
    { intros t. rewrite nsign_R. unfold soft, Rmax, Rabs.
      repeat (rcase || destruct (Rcase_abs _) || destruct (Rle_dec _ _)); lra. }
    assert (Hl1 : l1 (map (fun t => soft theta (Rabs t) * @nsign RN t) v) = s).
    { rewrite l1_Rsum, map_map. rewrite map_map in Hsum. rewrite <- Hsum. f_equal. apply map_ext, Hpt. }
    apply projection_intro.
    + apply map_length.
    + unfold l1_ball. lra.
    + intros y Hl Hy. unfold l1_ball in Hy.
      assert (Hk : dot (vminus v (map (fun t => soft theta (Rabs t) * @nsign RN t) v))
              (vminus y (map (fun t => soft theta (Rabs t) * @nsign RN t) v))
            <= theta * l1 y - theta * l1 (map (fun t => soft theta (Rabs t) * @nsign RN t) v)).
      { clear - Hl Hth Hpt. revert y Hl; unfold vminus; induction v as [|t v IH]; intros [|z y] Hl; simpl in Hl; try lia.
        - simpl; lra.
        - specialize (IH y ltac:(lia)). cbn [map lin dot l1]. rewrite Hpt.
          assert ((1 * t + -1 * (soft theta (Rabs t) * @nsign RN t)) * (1 * z + -1 * (soft theta (Rabs t) * @nsign RN t))
              <= theta * Rabs z - theta * soft theta (Rabs t)).
          { rewrite nsign_R. unfold soft, Rmax, Rabs.
            repeat (rcase || destruct (Rcase_abs _) || destruct (Rle_dec _ _)); try lra; nra. }
          lra. }
      rewrite Hl1 in Hk. assert (theta * l1 y <= theta * s) by (apply Rmult_le_compat_l; lra). lra.
Qed.

Lemma proj_l1ball_bad_s (K : Num) (v : vec K) (s : K) :
  nltb K n0 s = false -> proj_l1ball v s = Err AssertionError.
Proof. intros H; unfold proj_l1ball; rewrite H; reflexivity. Qed.

(** ** Linear maximisation oracles *)
Lemma argmax_better_R (b : R) (a : R) : @argmax_better RN b a = Rltb a b.
Proof. unfold argmax_better. rewrite !nisnan_R. reflexivity. Qed.
Lemma argmax_from_R (v : list R) : forall pre best bi,
  (bi < length pre)%nat -> nth bi pre 0 = best ->
  (forall j, (j < length pre)%nat -> nth j pre 0 <= best) ->
  (forall j, (j < bi)%nat -> nth j pre 0 < best) ->
  let r := @argmax_from RN best bi (length pre) v in
  (r < length (pre ++ v))%nat /\
  (forall j, (j < length (pre ++ v))%nat -> nth j (pre ++ v) 0 <= nth r (pre ++ v) 0) /\
  (forall j, (j < r)%nat -> nth j (pre ++ v) 0 < nth r (pre ++ v) 0).
Proof.
  induction v as [|x v IH]; intros pre best bi Hbi Hbest Hmax Hfirst; simpl.
  - rewrite app_nil_r, Hbest. auto.
  - rewrite argmax_better_R.
    replace (pre ++ x :: v) with ((pre ++ [x]) ++ v) by (rewrite <- app_assoc; reflexivity).
    replace (S (length pre)) with (length (pre ++ [x])) by (rewrite app_length; simpl; lia).
    destruct (Rltb_spec best x) as [Hlt|Hge].
    + apply IH.
      * rewrite app_length; simpl; lia.
      * rewrite app_nth2, Nat.sub_diag by lia; reflexivity.
      * intros j Hj. rewrite app_length in Hj; simpl in Hj.
        destruct (Nat.eq_dec j (length pre)) as [->|].
        -- rewrite app_nth2, Nat.sub_diag by lia; simpl; lra.
        -- rewrite app_nth1 by lia. specialize (Hmax j ltac:(lia)); lra.
      * intros j Hj. rewrite app_nth1 by lia. specialize (Hmax j Hj); lra.
    + apply IH.
      * rewrite app_length; simpl; lia.
      * rewrite app_nth1 by lia; exact Hbest.
      * intros j Hj. rewrite app_length in Hj; simpl in Hj.
        destruct (Nat.eq_dec j (length pre)) as [->|].
        -- rewrite app_nth2, Nat.sub_diag by lia; simpl; lra.
        -- rewrite app_nth1 by lia. apply Hmax; lia.
      * intros j Hj. rewrite app_nth1 by lia. apply Hfirst, Hj.
Qed.
Lemma argmax_R (v : list R) : v <> [] -> exists r, @argmax RN v = Ok r /\ (r < length v)%nat /\
  (forall j, (j < length v)%nat -> nth j v 0 <= nth r v 0) /\
  (forall j, (j < r)%nat -> nth j v 0 < nth r v 0).
Proof.
  destruct v as [|x v]; [congruence|]. intros _. simpl. eexists; split; [reflexivity|].
  apply (argmax_from_R v [x] x 0); simpl; try lia; try reflexivity.
  intros [|j] Hj; simpl; [lra|lia].
Qed.

(** a vertex: c * e_i *)
Definition vertex (n : nat) (c : R) (i : nat) : list R := smul c (unit_vec n i).
Lemma vertex_length n c i : length (vertex n c i) = n.
Proof. unfold vertex. rewrite smul_length, unit_vec_length; reflexivity. Qed.
Lemma nth_vertex n c i j : (j < n)%nat -> nth j (vertex n c i) 0 = if Nat.eqb j i then c else 0.
Proof. intros Hj. unfold vertex. rewrite nth_smul, nth_unit_vec by lia. destruct (Nat.eqb j i); lra. Qed.

Lemma unit_vec_seq_dot u i : forall lo,
  dot u (map (fun j => if Nat.eqb j i then 1 else 0) (seq lo (length u))) =
  if (Nat.leb lo i && Nat.ltb i (lo + length u))%bool then nth (i - lo) u 0 else 0.
Proof.
  induction u as [|a u IH]; intros lo; simpl.
  - destruct (Nat.leb_spec lo i); destruct (Nat.ltb_spec i (lo + 0)); simpl; try lra; lia.
  - rewrite IH. destruct (Nat.eqb_spec lo i) as [->|Hne].
    + rewrite Nat.sub_diag. destruct (Nat.leb_spec (S i) i); [lia|].
      destruct (Nat.leb_spec i i); [|lia]. destruct (Nat.ltb_spec i (i + S (length u))); [|lia]. simpl; lra.
    + replace (S lo + length u)%nat with (lo + S (length u))%nat by lia.
      destruct (Nat.ltb_spec i (lo + S (length u))); destruct (Nat.leb_spec (S lo) i); destruct (Nat.leb_spec lo i);
        simpl; try lra; try lia.
      destruct (i - lo)%nat eqn:E; [lia|]. replace (i - S lo)%nat with n by lia. lra.
Qed.
Lemma dot_vertex u c i : (i < length u)%nat -> dot u (vertex (length u) c i) = c * nth i u 0.
Proof.
  intros Hi. unfold vertex. rewrite dot_smul_r. unfold unit_vec. rewrite unit_vec_seq_dot.
  replace (Nat.leb 0 i && Nat.ltb i (0 + length u))%bool with true.
  - rewrite Nat.sub_0_r; reflexivity.
  - symmetry; apply andb_true_iff; split; [apply Nat.leb_le; lia|apply Nat.ltb_lt; lia].
Qed.
Lemma l1_unit n i : forall lo, l1 (map (fun j => if Nat.eqb j i then 1 else 0) (seq lo n)) <= 1
   /\ ((i < lo)%nat -> l1 (map (fun j => if Nat.eqb j i then 1 else 0) (seq lo n)) = 0).
Proof.
  induction n as [|n IH]; intros lo; simpl; [split; lra|].
  destruct (IH (S lo)) as [H1 H2]. destruct (Nat.eqb_spec lo i) as [->|Hne].
  - rewrite H2 by lia. rewrite Rabs_R1. split; [lra|lia].
  - rewrite Rabs_R0. split; [lra|]. intros; rewrite H2 by lia; lra.
Qed.
Lemma l1_smul a v : l1 (smul a v) = Rabs a * l1 v.
Proof. induction v as [|t v IH]; simpl; [lra|]. rewrite Rabs_mult, IH; lra. Qed.
Lemma l1_vertex n c i : l1 (vertex n c i) <= Rabs c.
Proof.
  unfold vertex. rewrite l1_smul. destruct (l1_unit n i 0) as [H _]. fold (unit_vec n i) in H.
  pose proof (Rabs_pos c). replace (Rabs c) with (Rabs c * 1) at 2 by lra. apply Rmult_le_compat_l; assumption.
Qed.

Lemma hoelder u y m : length y = length u -> (forall j, (j < length u)%nat -> Rabs (nth j u 0) <= m) ->
  0 <= m -> dot u y <= m * l1 y.
Proof.
  revert y; induction u as [|a u IH]; intros [|z y] Hl Hm Hp; simpl in Hl |- *; try lia; try lra.
  specialize (IH y ltac:(lia) (fun j Hj => Hm (S j) ltac:(simpl; lia)) Hp).
  pose proof (Hm 0%nat ltac:(simpl; lia)) as H0; simpl in H0.
  assert (a * z <= m * Rabs z).
  { apply Rle_trans with (Rabs (a * z)); [apply Rle_abs|]. rewrite Rabs_mult.
    apply Rmult_le_compat_r; [apply Rabs_pos|exact H0]. }
  lra.
Qed.

Lemma dir_vertex x idx c : (idx < length x)%nat ->
  vplus x (upd (smul (-1) x) idx (nth idx (smul (-1) x) 0 + c)) = vertex (length x) c idx.
Proof.
  intros Hi. apply list_ext with (d := 0).
  - unfold vplus. rewrite lin_length, upd_length, smul_length, vertex_length. lia.
  - intros i Hlt. assert (Hlt' : (i < length x)%nat).
    { unfold vplus in Hlt; rewrite lin_length, upd_length, smul_length in Hlt; lia. }
    rewrite nth_vplus by (rewrite upd_length, smul_length; reflexivity).
    rewrite nth_vertex by exact Hlt'.
    destruct (Nat.eqb_spec i idx) as [->|Hne].
    + rewrite nth_upd_eq by (rewrite smul_length; lia). rewrite nth_smul; lra.
    + rewrite nth_upd_neq by congruence. rewrite nth_smul; lra.
Qed.

Lemma l1_lmo_correct (alpha : R) (u : list R) (x : list R) : 0 <= alpha -> u <> [] -> length x = length u ->
  exists o sign idx, @l1_lmo RN alpha u x = Ok o /\
    lmo_fw o = Some (sign, idx) /\ lmo_away o = None /\ lmo_max_step o = 1 /\
    length (lmo_dir o) = length x /\
    (idx < length u)%nat /\
    vplus x (lmo_dir o) = vertex (length u) (alpha * sign) idx /\
    (sign = 1 \/ sign = -1 \/ (sign = 0 /\ u = zeros (length u))) /\
    is_lin_max (l1_ball alpha) u (vplus x (lmo_dir o)).
Proof.
  intros Ha Hu Hl. unfold l1_lmo. rewrite vabs_R, vopp_R.
  destruct (argmax_R (map Rabs u)) as (idx & He & Hidx & Hmax & _).
  { destruct u; [congruence|discriminate]. }
  rewrite map_length in Hidx. rewrite He. cbn [bind]. rn.
  rewrite (get_ok u idx 0) by exact Hidx. cbn [bind].
  rewrite (get_ok (smul (-1) x) idx 0) by (rewrite smul_length; lia). cbn [bind].
  rewrite set_ok by (rewrite smul_length; lia). cbn [bind].
  assert (Hm : forall j, (j < length u)%nat -> Rabs (nth j u 0) <= Rabs (nth idx u 0)).
  { intros j Hj. specialize (Hmax j). rewrite map_length in Hmax. specialize (Hmax Hj).
    rewrite <- Rabs_R0 in Hmax at 1 2. rewrite !(map_nth Rabs) in Hmax. exact Hmax. }
  set (sg := @nsign RN (nth idx u 0)).
  eexists _, sg, idx. split; [reflexivity|]. cbn [lmo_dir lmo_fw lmo_away lmo_max_step].
  rn. rewrite dir_vertex by lia. rewrite upd_length, smul_length.
  assert (Hsg : sg = 1 \/ sg = -1 \/ sg = 0 /\ u = zeros (length u)).
  { unfold sg. rewrite nsign_R. rcase; [auto|]. rcase; [auto|]. right; right. split; [reflexivity|].
    apply list_ext with (d := 0); [rewrite zeros_length; reflexivity|].
    intros j Hj. rewrite nth_zeros. specialize (Hm j Hj).
    replace (nth idx u 0) with 0 in Hm by lra. rewrite Rabs_R0 in Hm.
    destruct (Req_dec (nth j u 0) 0) as [->|Hnz]; [reflexivity|].
    apply Rabs_pos_lt in Hnz; lra. }
  repeat split; auto.
  - rewrite Hl; reflexivity.
  - rewrite vertex_length; lia.
  - unfold l1_ball. eapply Rle_trans; [apply l1_vertex|].
    rewrite Rabs_mult, (Rabs_right alpha) by lra.
    destruct Hsg as [->|[->|[-> _]]]; rewrite ?Rabs_R1, ?Rabs_R0, ?Rabs_Ropp, ?Rabs_R1; try lra.
    replace (-1) with (- (1)) by lra. rewrite Rabs_Ropp, Rabs_R1; lra.
  - intros y Hly Hy. rewrite Hl, dot_vertex by exact Hidx.
    eapply Rle_trans; [apply (hoelder u y (Rabs (nth idx u 0)) ltac:(lia) Hm (Rabs_pos _))|].
    assert (Hprod : alpha * sg * nth idx u 0 = alpha * Rabs (nth idx u 0)).
    { unfold sg. rewrite nsign_R. unfold Rabs. repeat (rcase || destruct (Rcase_abs _)); nra. }
    rewrite Hprod. rewrite Rmult_comm. apply Rmult_le_compat_r; [apply Rabs_pos|exact Hy].
Qed.

Lemma l1_lmo_empty (K : Num) (alpha : K) (x : vec K) : l1_lmo alpha [] x = Err ValueError.
Proof. reflexivity. Qed.

(** *** pairwise *)
Lemma correlation_ok u (r : rep RN) : (snd r < length u)%nat ->
  @correlation RN u r = Ok (fst r * nth (snd r) u 0).
Proof. intros H. unfold correlation. rewrite (get_ok u _ 0) by exact H. reflexivity. Qed.
Definition corrR (u : list R) (it : rep RN * R) : R := fst (fst it) * nth (snd (fst it)) u 0.

Lemma min_item_from_spec (u : list R) (l : active RN) : forall best,
  Forall (fun it : rep RN * R => (snd (fst it) < length u)%nat) l ->
  exists it, @min_item_from RN u best (corrR u best) l = Ok it /\
    (it = best \/ In it l) /\ corrR u it <= corrR u best /\
    (forall it', In it' l -> corrR u it <= corrR u it').
Proof.
  induction l as [|it l IH]; intros best Hf; cbn [min_item_from].
  - exists best. repeat split; auto; [lra|intros ? []].
  - inversion Hf as [|? ? Hit Hf']; subst. rewrite correlation_ok by exact Hit. cbn [bind].
    rn. change (fst (fst it) * nth (snd (fst it)) u 0) with (corrR u it).
    destruct (Rltb_spec (corrR u it) (corrR u best)).
    + destruct (IH it Hf') as (r & He & Hin & Hle & Hall). exists r. split; [exact He|]. split.
      * destruct Hin as [->|]; right; simpl; auto.
      * split; [lra|]. intros it' [<-|Hi]; [lra|apply Hall, Hi].
    + destruct (IH best Hf') as (r & He & Hin & Hle & Hall). exists r. split; [exact He|]. split.
      * destruct Hin as [->|]; simpl; auto.
      * split; [lra|]. intros it' [<-|Hi]; [lra|apply Hall, Hi].
Qed.
Lemma min_item_spec (u : list R) (l : active RN) : l <> [] ->
  Forall (fun it : rep RN * R => (snd (fst it) < length u)%nat) l ->
  exists it, @min_item RN u l = Ok it /\ In it l /\ (forall it', In it' l -> corrR u it <= corrR u it').
Proof.
  destruct l as [|it l]; [congruence|]. intros _ Hf. inversion Hf as [|? ? Hit Hf']; subst.
  cbn [min_item]. rewrite correlation_ok by exact Hit. cbn [bind].
  destruct (min_item_from_spec u l it Hf') as (r & He & Hin & Hle & Hall).
  change (fst (fst it) * nth (snd (fst it)) u 0) with (corrR u it).
  exists r. split; [exact He|]. split.
  - destruct Hin as [->|]; simpl; auto.
  - intros it' [<-|Hi]; [exact Hle|apply Hall, Hi].
Qed.

Lemma l1_lmo_pairwise_correct (alpha : R) (u : list R) (x : list R) (act : active RN) :
  0 <= alpha -> u <> [] -> length x = length u -> act <> [] ->
  Forall (fun it : rep RN * R => (snd (fst it) < length u)%nat) act ->
  exists o sign idx asign aidx w,
    @l1_lmo_pairwise RN alpha u x act = Ok o /\
    lmo_fw o = Some (sign, idx) /\ lmo_away o = Some (asign, aidx) /\ lmo_max_step o = w /\
    (idx < length u)%nat /\
    lmo_dir o = vminus (vertex (length u) (alpha * sign) idx) (vertex (length u) (alpha * asign) aidx) /\
    is_lin_max (l1_ball alpha) u (vertex (length u) (alpha * sign) idx) /\
    In ((asign, aidx), w) act /\
    (forall s' i' w', In ((s', i'), w') act ->
        dot u (vertex (length u) (alpha * asign) aidx) <= dot u (vertex (length u) (alpha * s') i')) /\
    (sign = 1 \/ sign = -1 \/ (sign = 0 /\ u = zeros (length u))).
Proof.
  intros Ha Hu Hl Hact Hb. unfold l1_lmo_pairwise.
  destruct (l1_lmo_correct alpha u x Ha Hu Hl) as (o & sg & idx & He & Hfw & Haw & Hms & Hdl & Hidx & Hv & Hsg & Hmax).
  rewrite He. cbn [bind]. rewrite vadd_R.
  replace (vplus (lmo_dir o) x) with (vplus x (lmo_dir o)).
  2:{ apply list_ext with (d := 0).
      - unfold vplus. rewrite !lin_length. apply Nat.min_comm.
      - intros i _. rn. rewrite !nth_vplus by (rewrite Hdl; reflexivity). lra. }
  destruct (min_item_spec u act Hact Hb) as ([[asg aidx] w] & Hmi & Hin & Hmin).
  rewrite Hmi. cbn [bind fst snd]. rewrite Hv in *. rn.
  assert (Haidx : (aidx < length u)%nat).
  { rewrite Forall_forall in Hb. apply (Hb _ Hin). }
  rewrite (get_ok _ aidx 0) by (rewrite vertex_length; lia). cbn [bind].
  rewrite set_ok by (rewrite vertex_length; lia). cbn [bind].
  eexists _, sg, idx, asg, aidx, w. split; [reflexivity|]. cbn [lmo_dir lmo_fw lmo_away lmo_max_step].
  repeat split; auto.
  - rn. apply list_ext with (d := 0).
    + unfold vminus. rewrite upd_length, lin_length, !vertex_length. lia.
    + intros i Hi. rewrite upd_length, vertex_length in Hi.
      rewrite nth_vminus by (rewrite !vertex_length; reflexivity).
      rewrite (nth_vertex _ _ aidx) by exact Hi.
      destruct (Nat.eqb_spec i aidx) as [->|Hne].
      * rewrite nth_upd_eq by (rewrite vertex_length; lia). lra.
      * rewrite nth_upd_neq by congruence. lra.
  - apply Hmax.
  - apply Hmax.
  - apply Hmax.
  - intros s' i' w' Hin'. pose proof (Hmin _ Hin') as Hc. unfold corrR in Hc; cbn [fst snd] in Hc.
    assert ((i' < length u)%nat) by (rewrite Forall_forall in Hb; apply (Hb _ Hin')).
    rewrite !dot_vertex by assumption. rewrite !Rmult_assoc. apply Rmult_le_compat_l; assumption.
Qed.

Lemma l1_lmo_pairwise_empty (alpha : R) u x : u <> [] -> length x = length u -> 0 <= alpha ->
  @l1_lmo_pairwise RN alpha u x [] = Err ValueError.
Proof.
  intros Hu Hl Ha. unfold l1_lmo_pairwise.
  destruct (l1_lmo_correct alpha u x Ha Hu Hl) as (o & sg & idx & He & _). rewrite He. reflexivity.
Qed.

(** *** SimplexConstraint.lmo *)
Lemma simplex_lmo_value (s : R) (u : list R) (x : list R) : u <> [] -> length x = length u ->
  exists o idx, @simplex_lmo RN s u x = Ok o /\ (idx < length u)%nat /\
    (forall j, (j < length u)%nat -> nth j u 0 <= nth idx u 0) /\
    length (lmo_dir o) = length x /\
    vplus x (lmo_dir o) = vertex (length u) (s * @nsign RN (nth idx u 0)) idx.
Proof.
  intros Hu Hl. unfold simplex_lmo. rewrite vopp_R.
  destruct (argmax_R u Hu) as (idx & He & Hidx & Hmax & _). rewrite He. cbn [bind]. rn.
  rewrite (get_ok u idx 0) by exact Hidx. cbn [bind].
  rewrite (get_ok (smul (-1) x) idx 0) by (rewrite smul_length; lia). cbn [bind].
  rewrite set_ok by (rewrite smul_length; lia). cbn [bind].
  eexists _, idx. split; [reflexivity|]. cbn [lmo_dir]. rn.
  rewrite dir_vertex by lia. rewrite Hl, upd_length, smul_length. auto.
Qed.
Lemma simplex_lmo_partial_lemma (s : R) (u : list R) (x : list R) : 0 <= s -> u <> [] -> length x = length u ->
  (exists j, (j < length u)%nat /\ 0 <= nth j u 0) ->
  exists o, @simplex_lmo RN s u x = Ok o /\ is_lin_max (solid_simplex s) u (vplus x (lmo_dir o)).
Proof.
  intros Hs Hu Hl (j0 & Hj0 & Hp).
  destruct (simplex_lmo_value s u x Hu Hl) as (o & idx & He & Hidx & Hmax & Hdl & Hv).
  exists o. split; [exact He|]. rewrite Hv.
  assert (Hnn : 0 <= nth idx u 0) by (specialize (Hmax j0 Hj0); lra).
  set (sg := @nsign RN (nth idx u 0)).
  assert (Hsg : 0 <= sg <= 1 /\ sg * nth idx u 0 = nth idx u 0).
  { unfold sg; rewrite nsign_R; repeat rcase; lra. }
  destruct Hsg as [Hsg Hpr].
  assert (Hvn : Forall (fun t => 0 <= t) (vertex (length u) (s * sg) idx)).
  { apply Forall_forall. intros t Ht. apply In_nth with (d := 0) in Ht as (k & Hk & <-).
    rewrite vertex_length in Hk. rewrite nth_vertex by exact Hk. destruct (Nat.eqb k idx); nra. }
  split; [apply vertex_length|]. split.
  - split; [exact Hvn|]. eapply Rle_trans; [apply l1_vertex|]. rewrite Rabs_right by nra. nra.
  - intros y Hly [Hy Hy1]. rewrite dot_vertex by exact Hidx.
    rewrite Rmult_assoc, Hpr.
    assert (Hd : dot u y <= nth idx u 0 * l1 y).
    { clear - Hly Hy Hmax. revert Hmax. generalize (nth idx u 0) as m. intros m.
      revert y Hly Hy; induction u as [|a u IH]; intros [|z y] Hly Hy Hmax; simpl in Hly; try lia; simpl; [lra|].
      inversion Hy; subst. specialize (IH y ltac:(lia) ltac:(assumption) (fun j Hj => Hmax (S j) ltac:(simpl; lia))).
      pose proof (Hmax 0%nat ltac:(simpl; lia)) as H0; simpl in H0.
      rewrite (Rabs_right z) by lra. nra. }
    eapply Rle_trans; [exact Hd|]. rewrite Rmult_comm. apply Rmult_le_compat_r; assumption.
Qed.

Lemma l2_prox_full (alpha : R) (x : list R) : 0 <= alpha ->
  is_projection (l2_ball alpha) x (@l2_prox RN alpha x) /\ (norm2 x <= alpha -> @l2_prox RN alpha x = x).
Proof. intros H. split; [apply l2_prox_projection, H|apply l2_prox_inside]. Qed.

Lemma simplex_lmo_negative (s : R) (u x : list R) :
  0 < s -> u <> [] -> length x = length u -> (forall j, (j < length u)%nat -> nth j u 0 < 0) ->
  exists o, @simplex_lmo RN s u x = Ok o /\ ~ solid_simplex s (vplus x (lmo_dir o)).
Proof.
  intros Hs Hu Hx Hn. destruct (simplex_lmo_value s u x Hu Hx) as (o & idx & He & Hi & _ & _ & Hv).
  exists o. split; [exact He|]. rewrite Hv. intros [Hp _]. rewrite Forall_forall in Hp.
  specialize (Hp (nth idx (vertex (length u) (s * @nsign RN (nth idx u 0)) idx) 0)).
  specialize (Hp ltac:(apply nth_In; rewrite vertex_length; exact Hi)).
  rewrite nth_vertex, Nat.eqb_refl in Hp by exact Hi.
  rewrite nsign_R in Hp. specialize (Hn idx Hi). rewrite Rltb_false, Rltb_true in Hp by lra. lra.
Qed.
