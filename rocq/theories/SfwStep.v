(** * One iteration of minimize_sfw over the reals *)
From Coq Require Import Reals Lra Lia List Bool ZArith Permutation.
From Verif Require Import Num Vec Spec SpecSparse RVec ConvexFacts ModelConstraint ModelPenalty PenaltyFacts PenaltyFacts2 ModelUtilsArr UtilsMain
  ModelFrankWolfe FrankWolfeConv ModelRandomized SpecFiniteSum RandomizedFacts ModelSfw SpecSfw SfwFacts.
Import ListNotations.
Local Open Scope R_scope.

Lemma map2_map_same {A B C D} (f : B -> C -> D) (g : A -> B) (h : A -> C) l : map2 f (map g l) (map h l) = map (fun a => f (g a) (h a)) l.
Proof. induction l; simpl; congruence. Qed.
Lemma Rsum_sub_seq (f : nat -> R) n l : NoDup l -> Forall (fun i => (i < n)%nat) l -> (forall i, (i < n)%nat -> ~ In i l -> f i = 0) ->
  Rsum (map f l) = Rsum (map f (seq 0 n)).
Proof.
  intros N F Z.
  set (rest := filter (fun i => if in_dec Nat.eq_dec i l then false else true) (seq 0 n)).
  assert (Pm : Permutation (seq 0 n) (l ++ rest)).
  { apply NoDup_Permutation; [apply seq_NoDup| |].
    - apply NoDup_app_intro; [exact N|apply NoDup_filter, seq_NoDup|]. intros a Ha Hr. apply filter_In in Hr as [_ Hr].
      destruct (in_dec Nat.eq_dec a l); [discriminate|contradiction].
    - intros a. rewrite in_app_iff. unfold rest. rewrite filter_In, in_seq. rewrite Forall_forall in F. split.
      + intros Ha. destruct (in_dec Nat.eq_dec a l); auto.
      + intros [Ha|[Ha _]]; [|lia]. specialize (F a Ha). lia. }
  rewrite (Rsum_perm _ _ (Permutation_map f Pm)), map_app, Rsum_app.
  rewrite (Rsum_zero f rest); [lra|]. intros a Ha. apply filter_In in Ha as [Ha Hb]. apply in_seq in Ha.
  apply Z; [lia|]. destruct (in_dec Nat.eq_dec a l); [discriminate|assumption].
Qed.

Lemma vplus_len (a b : list R) m : length a = m -> length b = m -> length (vplus a b) = m.
Proof. intros A B. leng. Qed.
Lemma vadd_len (a b : list R) m : length a = m -> length b = m -> length (vadd (K:=RN) a b) = m.
Proof. intros A B. rewrite vadd_R. apply vplus_len; assumption. Qed.
Lemma smul_len c (a : list R) m : length a = m -> length (smul c a) = m.
Proof. intros A. rewrite smul_length. exact A. Qed.
(** replace a bound computation by its known value, up to conversion *)
Ltac useok Eu E :=
  let v := fresh "v" in let Ev := fresh "Ev" in let X := fresh "X" in
  apply bind_ok in E as (v & Ev & E);
  pose proof (eq_trans (eq_sym Ev) Eu) as X; injection X as X; rewrite X in E; clear X Ev v.
Section Step.
Variable pow23 : R -> R.
Variable P : problem RN.
Variable lmo : lmo_fun RN.
Variable variant : sfw_variant.
Variable rule : sfw_rule.
Variable lipschitz : option RN.
Variable bs : nat.
Hypothesis W : problem_wf P.
Local Notation n := (p_n P).
Local Notation d := (p_d P).
Local Notation stepf := (sfw_step (K:=RN) pow23 P lmo variant rule lipschitz bs).

Lemma row_wf i : (i < n)%nat -> csr_row_wf (length (p_data P)) (p_indptr P) (p_indices P) d i.
Proof.
  intros Hi. destruct W as (C & L & _). pose proof (csr_row_ok _ _ _ _ _ C Hi) as (A & B).
  repeat split; auto. apply Forall_forall. intros c Hc. apply (csr_row_in _ _ _ _ _ _ C Hi Hc).
Qed.
Lemma rows_wf batch : Forall (fun i => (i < n)%nat) batch -> Forall (csr_row_wf (length (p_data P)) (p_indptr P) (p_indices P) d) batch.
Proof. apply Forall_impl. intros i. apply row_wf. Qed.
Lemma mv_R (x : list R) batch : length x = d -> Forall (fun i => (i < n)%nat) batch ->
  fast_csr_mv (K:=RN) (p_data P) (p_indptr P) (p_indices P) x batch = Ok (map (fun i => adot P i x) batch).
Proof.
  intros L F. pose proof (rows_wf batch F) as Wf. rewrite <- L in Wf.
  destruct (main_C30_matvec (p_data P) (p_indptr P) (p_indices P) x batch Wf) as (r & E & Lr & H).
  rewrite E. f_equal. apply list_ext with (d := 0); [rewrite map_length; exact Lr|].
  intros k Hk. assert (Hk' : (k < length batch)%nat) by (rewrite <- Lr; exact Hk). etransitivity; [exact (H k Hk')|].
  rewrite (nth_indep _ 0 (adot P 0%nat x)) by (rewrite map_length; exact Hk').
  rewrite (map_nth (fun i => adot P i x)). unfold adot, ent. rewrite L. reflexivity.
Qed.
Lemma vm_R (h : nat -> R) batch : Forall (fun i => (i < n)%nat) batch ->
  exists r : list R, fast_csr_vm (K:=RN) (map h batch) (p_data P) (p_indptr P) (p_indices P) d batch = Ok r /\ length r = d /\
    forall j, (j < d)%nat -> nth j r 0 = Rsum (map (fun i => h i * ent P i j) batch).
Proof.
  intros F. destruct (main_C30_vecmat (p_data P) (p_indptr P) (p_indices P) (map h batch) d batch (map_length _ _) (rows_wf batch F)) as (r & E & Lr & H).
  exists r. split; [exact E|]. split; [exact Lr|]. intros j Hj. etransitivity; [exact (H j Hj)|]. unfold ent.
  rewrite <- (map_enumerate (fun k i => nth k (map h batch) 0 * csr_entry (p_data P) (p_indptr P) (p_indices P) i j) batch 0%nat).
  unfold enumerate. f_equal.
  assert (G : forall l s pre, length pre = s -> map (fun ki : nat * nat => nth (fst ki) (pre ++ map h l) 0 * csr_entry (p_data P) (p_indptr P) (p_indices P) (snd ki) j) (combine (seq s (length l)) l)
     = map (fun i => h i * csr_entry (p_data P) (p_indptr P) (p_indices P) i j) l).
  { clear. induction l as [|a l IH]; intros s pre Hs; [reflexivity|]. cbn [length seq combine map]. cbn [fst snd].
    rewrite app_nth2, Hs, Nat.sub_diag by lia. cbn [nth]. f_equal.
    specialize (IH (S s) (pre ++ [h a]) ltac:(rewrite app_length; cbn [length]; lia)).
    rewrite <- IH. apply map_ext. intros ki. rewrite <- app_assoc. reflexivity. }
  apply (G batch 0%nat []). reflexivity.
Qed.
Lemma fd_R (g : nat -> R) batch : Forall (fun i => (i < n)%nat) batch ->
  sfw_fd (K:=RN) P (map g batch) batch = Ok (map (fun i => p_fd P (g i) (nth i (p_b P) 0)) batch).
Proof.
  intros F. unfold sfw_fd. destruct W as (_ & _ & Lb). rewrite (gather_ok (p_b P) batch 0).
  2:{ eapply Forall_impl; [|exact F]. cbn beta. intros i Hi. lia. }
  cbn [bind]. f_equal. apply (map2_map_same (p_fd P)).
Qed.

Definition state_wf (s : sfw_state RN) : Prop :=
  length (sw_x s) = d /\ length (sw_dual s) = n /\ length (sw_agg s) = d /\ (variant = LF -> length (sw_sigma s) = n).

(** at this state the oracle returns directions of the size of x (numpy raises otherwise) *)
Definition sized_at (s : sfw_state RN) : Prop :=
  forall u o, length u = d -> call_lmo lmo u (sw_x s) (sw_active s) = Ok o -> length (lmo_dir o) = d.
(** what the update of the dual variables does, variant by variant *)
Definition dual_facts (asz : option R) (batch : list nat) (s : sfw_state RN) (dual sigma : list R) (lf : option (list R * lmo_out RN)) : Prop :=
  match variant with
  | SAG | SAGA => lf = None /\ sigma = sw_sigma s /\
      forall i, In i batch -> nth i dual 0 = / INR n * loss_deriv P (sw_x s) i
  | MHK => lf = None /\ sigma = sw_sigma s /\ exists a, asz = Some a /\
      forall i, In i batch -> nth i dual 0 = (1 - a) * nth i (sw_dual s) 0 + a * loss_deriv P (sw_x s) i
  | LF => exists a o, asz = Some a /\ lf = Some (sw_agg s, o) /\ call_lmo lmo (vopp (K:=RN) (sw_agg s)) (sw_x s) (sw_active s) = Ok o /\
      (forall i, ~ In i batch -> nth i sigma 0 = nth i (sw_sigma s) 0) /\
      (forall i, In i batch -> nth i sigma 0 = (1 - a) * nth i (sw_sigma s) 0 + a * adot P i (vplus (sw_x s) (lmo_dir o))) /\
      forall i, In i batch -> nth i dual 0 = / INR n * p_fd P (nth i sigma 0) (nth i (p_b P) 0)
  | OtherSfw => False
  end.
Lemma inv_n_R : @eq R (inv_n (K:=RN) P) (/ INR n).
Proof. unfold inv_n. rewrite nofnat_R. rn. unfold Rdiv. ring. Qed.
Lemma adot_comm_vplus i (u v : list R) : length u = length v -> adot P i (vplus u v) = adot P i (vplus v u).
Proof. intros L. unfold adot. f_equal. apply map_ext. intros c. rewrite !nth_vplus by (auto; symmetry; auto). ring. Qed.
Lemma dual_update_facts asz batch s dual sigma lf : state_wf s -> sized_at s -> Forall (fun i => (i < n)%nat) batch -> NoDup batch ->
  sfw_dual_update (K:=RN) P lmo variant asz batch s = Ok (dual, sigma, lf) ->
  length dual = n /\ (variant = LF -> length sigma = n) /\
  (forall i, ~ In i batch -> nth i dual 0 = nth i (sw_dual s) 0) /\ dual_facts asz batch s dual sigma lf.
Proof.
  intros (Lx & Ld & La & Ls) Hlmo F N E. unfold sfw_dual_update in E. unfold dual_facts.
  assert (Fd : Forall (fun i => (i < length (sw_dual s))%nat) batch) by (rewrite Ld; exact F).
  destruct variant; try discriminate E.
  1, 2: rewrite (mv_R _ _ Lx F) in E; cbn [bind] in E; rewrite (fd_R _ _ F) in E; cbn [bind] in E;
    rewrite vscale_R in E; unfold smul in E; rewrite map_map in E;
    destruct (scatter_ok (fun i => inv_n (K:=RN) P * p_fd P (adot P i (sw_x s)) (nth i (p_b P) 0)) batch (sw_dual s) N Fd) as (u & Eu & Lu & H1 & H2);
    useok Eu E; injection E as <- <- <-;
    (split; [rewrite <- Ld; exact Lu|]); (split; [discriminate|]); (split; [intros i Hi; apply H2, Hi|]);
    (split; [reflexivity|]); (split; [reflexivity|]); intros i Hi; (etransitivity; [exact (H1 i 0 Hi)|]); rewrite inv_n_R; reflexivity.
  - rewrite (mv_R _ _ Lx F) in E. cbn [bind] in E. useok (gather_ok _ _ 0 Fd) E.
    destruct asz as [a|]; [|discriminate E]. rewrite (fd_R _ _ F) in E. cbn [bind] in E.
    unfold vadd, vscale, vsub in E. rewrite map2_map_same, map_map, map2_map_same in E.
    destruct (scatter_ok (fun i => nadd RN (nth i (sw_dual s) 0) (nmul RN a (nsub RN (p_fd P (adot P i (sw_x s)) (nth i (p_b P) 0)) (nth i (sw_dual s) 0)))) batch (sw_dual s) N Fd) as (u & Eu & Lu & H1 & H2).
    useok Eu E. injection E as <- <- <-.
    split; [rewrite <- Ld; exact Lu|]. split; [discriminate|]. split; [intros i Hi; apply H2, Hi|].
    split; [reflexivity|]. split; [reflexivity|]. exists a. split; [reflexivity|].
    intros i Hi. etransitivity; [exact (H1 i 0 Hi)|]. unfold loss_deriv. change (carrier RN) with R. rn. ring.
  - specialize (Ls eq_refl). apply bind_ok in E as (o & Eo & E).
    assert (Fs : Forall (fun i => (i < length (sw_sigma s))%nat) batch) by (rewrite Ls; exact F).
    useok (gather_ok _ _ 0 Fs) E. destruct asz as [a|]; [|discriminate E].
    assert (Lo : length (lmo_dir o) = d) by (apply (Hlmo _ _ (eq_trans (map_length _ _) La) Eo)).
    assert (Lv : length (vadd (K:=RN) (lmo_dir o) (sw_x s)) = d) by (apply vadd_len; assumption).
    rewrite (mv_R _ _ Lv F) in E. cbn [bind] in E.
    unfold vscale, vsub in E. unfold vadd at 1 in E. rewrite map2_map_same, map_map, map2_map_same in E.
    destruct (scatter_ok (fun i => nadd RN (nth i (sw_sigma s) 0) (nmul RN a (nsub RN (adot P i (vadd (K:=RN) (lmo_dir o) (sw_x s))) (nth i (sw_sigma s) 0)))) batch (sw_sigma s) N Fs) as (sg & Esg & Lsg & G1 & G2).
    useok Esg E.
    assert (Fs' : Forall (fun i => (i < length sg)%nat) batch) by (rewrite Lsg; exact Fs).
    useok (gather_ok _ _ 0 Fs') E. rewrite (fd_R _ _ F) in E. cbn [bind] in E. rewrite map_map in E.
    destruct (scatter_ok (fun i => nmul RN (inv_n (K:=RN) P) (p_fd P (nth i sg 0) (nth i (p_b P) 0))) batch (sw_dual s) N Fd) as (u & Eu & Lu & H1 & H2).
    useok Eu E. injection E as <- <- <-.
    split; [rewrite <- Ld; exact Lu|]. split; [intros _; rewrite <- Ls; exact Lsg|]. split; [intros i Hi; apply H2, Hi|].
    exists a, o. split; [reflexivity|]. split; [reflexivity|]. split; [exact Eo|]. split; [intros i Hi; apply G2, Hi|].
    split.
    + intros i Hi. etransitivity; [exact (G1 i 0 Hi)|]. rewrite vadd_R, (adot_comm_vplus i (lmo_dir o) (sw_x s)) by (exact (eq_trans Lo (eq_sym Lx))). change (carrier RN) with R. rn. ring.
    + intros i Hi. etransitivity; [exact (H1 i 0 Hi)|]. rn. rewrite inv_n_R. reflexivity.
Qed.

(** the gradient estimate and the step length *)
Definition est_facts (s : sfw_state RN) (r : sfw_iter RN) : Prop :=
  length (si_est r) = d /\
  forall j, (j < d)%nat -> nth j (si_est r) 0 =
    match variant with
    | LF => nth j (sw_agg s) 0
    | SAGA => nth j (sw_agg (si_next r)) 0 + INR (n - 1) * (nth j (sw_agg (si_next r)) 0 - nth j (sw_agg s) 0)
    | _ => nth j (sw_agg (si_next r)) 0
    end.
Definition agg_size (t : nat) : option R := match rule with SSublinear => snd (sfw_sizes (K:=RN) pow23 variant bs n t) | _ => None end.
Definition gamma_of (t : nat) (agg dir : list R) (ms : R) : R :=
  match rule with
  | SSublinear => fst (sfw_sizes (K:=RN) pow23 variant bs n t)
  | _ => sfw_DR (K:=RN) (- dot agg dir) dir (match lipschitz with Some L => L | None => 1 end) ms
  end.
Lemma step_inv it batch s r : state_wf s -> sized_at s -> Forall (fun i => (i < n)%nat) batch -> NoDup batch -> stepf it batch s = Ok r ->
  si_prev r = s /\ si_batch r = batch /\ si_epoch r = it /\ rule <> SOther /\ state_wf (si_next r) /\ sw_t (si_next r) = sw_t s /\
  (forall i, ~ In i batch -> nth i (sw_dual (si_next r)) 0 = nth i (sw_dual s) 0) /\
  (forall j, (j < d)%nat -> nth j (sw_agg (si_next r)) 0 = nth j (sw_agg s) 0 +
     Rsum (map (fun i => (nth i (sw_dual (si_next r)) 0 - nth i (sw_dual s) 0) * ent P i j) batch)) /\
  (exists lf, dual_facts (agg_size (sw_t s)) batch s (sw_dual (si_next r)) (sw_sigma (si_next r)) lf) /\
  est_facts s r /\
  call_lmo lmo (vopp (K:=RN) (si_est r)) (sw_x s) (sw_active s) = Ok (si_lmo r) /\ length (lmo_dir (si_lmo r)) = d /\
  si_gamma r = gamma_of (sw_t s) (sw_agg (si_next r)) (lmo_dir (si_lmo r)) (lmo_max_step (si_lmo r)) /\
  sw_x (si_next r) = vplus (sw_x s) (smul (si_gamma r) (lmo_dir (si_lmo r))) /\
  (sw_active s = None -> sw_active (si_next r) = None).
Proof.
  intros Ws Hlmo F N E. destruct (Ws) as (Lx & Ld & La & Ls). unfold sfw_step in E.
  apply bind_ok in E as (sizes & Esz & E).
  assert (Fd : Forall (fun i => (i < length (sw_dual s))%nat) batch) by (rewrite Ld; exact F).
  useok (gather_ok _ _ 0 Fd) E.
  apply bind_ok in E as ([[dual sigma] lf] & Eu & E).
  assert (Hasz : match sizes with Some (_, a) => a | None => None end = agg_size (sw_t s)).
  { unfold agg_size. destruct rule; try discriminate Esz; injection Esz as <-; [|reflexivity].
    destruct (sfw_sizes (K:=RN) pow23 variant bs n (sw_t s)); reflexivity. }
  rewrite Hasz in Eu.
  destruct (dual_update_facts _ _ _ _ _ _ Ws Hlmo F N Eu) as (Ldu & Lsi & Hout & Hdf).
  assert (Fd' : Forall (fun i => (i < length dual)%nat) batch) by (rewrite Ldu; exact F).
  useok (gather_ok _ _ 0 Fd') E. unfold vsub at 1 in E. rewrite map2_map_same in E.
  destruct (vm_R (fun i => nsub RN (nth i dual 0) (nth i (sw_dual s) 0)) batch F) as (u & Evm & Lu & Hu).
  useok Evm E. rewrite vadd_R in E. 
  apply bind_ok in E as ([est o] & Eo & E).
  assert (Lagg : length (vplus (sw_agg s) u) = d) by (apply vplus_len; assumption).
  assert (Hest : length est = d /\ (forall j, (j < d)%nat -> nth j est 0 =
    match variant with
    | LF => nth j (sw_agg s) 0
    | SAGA => nth j (vplus (sw_agg s) u) 0 + INR (n - 1) * (nth j (vplus (sw_agg s) u) 0 - nth j (sw_agg s) 0)
    | _ => nth j (vplus (sw_agg s) u) 0 end) /\ call_lmo lmo (vopp (K:=RN) est) (sw_x s) (sw_active s) = Ok o).
  { unfold dual_facts in Hdf. destruct variant.
    - apply bind_ok in Eo as (o' & Eo & E'). injection E' as <- <-. split; [exact Lagg|]. split; [reflexivity|exact Eo].
    - apply bind_ok in Eo as (o' & Eo & E'). injection E' as <- <-. rewrite vscale_R, vadd_R in *.
      split; [apply vplus_len; [|apply smul_len]; assumption|]. split; [|exact Eo].
      intros j Hj. rewrite nth_vplus by (rewrite (smul_len _ _ _ Lu); exact Lagg). rewrite nth_smul, nth_vplus by (exact (eq_trans La (eq_sym Lu))).
      rewrite <- INR_IZR_INZ. change (carrier RN) with R. ring.
    - apply bind_ok in Eo as (o' & Eo & E'). injection E' as <- <-. split; [exact Lagg|]. split; [reflexivity|exact Eo].
    - destruct Hdf as (a & o' & _ & -> & Ec & _). injection Eo as <- <-. auto.
    - destruct Hdf. }
  destruct Hest as (Lest & Hest & Ec).
  assert (Lo : length (lmo_dir o) = d) by (apply (Hlmo _ _ (eq_trans (map_length _ _) Lest) Ec)).
  apply bind_ok in E as (act & Eact & E). injection E as <-.
  unfold est_facts. cbn [si_prev si_batch si_epoch si_next si_est si_lmo si_gamma sw_x sw_dual sw_agg sw_sigma sw_active sw_t].
  split; [reflexivity|]. split; [reflexivity|]. split; [reflexivity|].
  split; [intros ->; discriminate Esz|].
  split. { split; [|split; [|split]]; cbn [sw_x sw_dual sw_agg sw_sigma]; auto. rewrite vscale_R, vadd_R. apply vplus_len; [|apply smul_len]; assumption. }
  split; [reflexivity|]. split; [exact Hout|].
  split. { intros j Hj. rewrite nth_vplus by (exact (eq_trans La (eq_sym Lu))). rewrite (Hu j Hj). reflexivity. }
  split; [exists lf; exact Hdf|]. split; [split; [exact Lest|exact Hest]|].
  split; [exact Ec|]. split; [exact Lo|].
  split. { unfold gamma_of. destruct rule; try discriminate Esz; injection Esz as <-.
    - destruct (sfw_sizes (K:=RN) pow23 variant bs n (sw_t s)); reflexivity.
    - rewrite vdot_R, vopp_R, dot_smul_l. f_equal. ring. }
  split; [rewrite vscale_R, vadd_R; reflexivity|].
  intros Ha. rewrite Ha in Eact. injection Eact as <-. reflexivity.
Qed.
End Step.
