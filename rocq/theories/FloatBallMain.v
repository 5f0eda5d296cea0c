(** * Frank-Wolfe on the l1 ball in binary64: the iterates leave the ball by rounding errors only *)
From Coq Require Import ZArith Reals Lra Lia Bool List.
From Coq Require Import Floats.SpecFloat.
From Flocq Require Import Core.Core.
From Verif Require Import Num Vec Spec RVec ModelConstraint ModelFrankWolfe FrankWolfeFacts FloatBase FloatSum FloatPair FloatPair2 FloatSimplex2 FloatBall.
Import ListNotations.
Local Open Scope R_scope.

(** a step between 0 and 1 in the comparisons of binary64 *)
Definition step01 (s : F64) : Prop := datum s /\ nleb F64 n0 s = true /\ nleb F64 s n1 = true.
Lemma step01_fin s : step01 s -> fin s /\ 0 <= fv s <= 1.
Proof.
  intros (D & A & B). assert (F : fin s).
  { split; [|exact D]. destruct s as [[]|[]| |[] m e]; try reflexivity; try discriminate A; vm_compute in B; discriminate B. }
  split; [exact F|]. rewrite (leb_fin _ _ fin_0 F), fv_0 in A. rewrite (leb_fin _ _ F fin_1), fv_1 in B.
  unfold Rleb in A, B. destruct (Rle_dec 0 (fv s)); [|discriminate A]. destruct (Rle_dec (fv s) 1); [|discriminate B]. lra.
Qed.

Section Run.
Variables (n : nat) (alpha tol : F64) (fg : vec F64 -> F64 * vec F64) (cb : option (list (fw_event F64) -> bool)).
Variables (step : fw_strategy F64) (lipschitz : option F64) (m : nat).
Hypotheses (Hn : (0 < n)%nat) (Fa : fin alpha) (Ha : 0 <= fv alpha).
Hypothesis Hfg : forall x, length x = n -> Forall fin x -> length (snd (fg x)) = n /\ num (snd (fg x)).
Hypothesis HT : drift n (fv alpha) m <= ftop.

Definition inball (k : nat) (x : list F64) : Prop := length x = n /\ Forall fin x /\ l1f x <= drift n (fv alpha) k.
Definition allok (l : list (fw_iter F64)) : Prop := Forall (fun i => inball (Datatypes.S (fi_it i)) (fi_next i)) l.
Definition steps01 (l : list (fw_iter F64)) : Prop := Forall (fun i => step01 (fi_step i)) l.

Lemma next_ok k grad x o ss : (k < m)%nat -> length grad = n -> num grad -> inball k x -> step01 ss ->
  l1_lmo alpha (vopp grad) x = Ok o -> inball (Datatypes.S k) (vadd x (vscale ss (lmo_dir o))).
Proof.
  intros Hk Lg Ng (Lx & Fx & Bx) Hs Eo. destruct (step01_fin _ Hs) as [Fs H01].
  destruct (lmo_step n alpha ss grad x k Hn Lg Lx Ng Fx Fa Ha Fs H01 Bx) as (o' & Eo' & Ld & A & B).
  { eapply Rle_trans; [|exact HT]. apply drift_mono; [exact Ha|lia]. }
  rewrite Eo in Eo'. injection Eo' as <-. split; [|split; [exact A|exact B]].
  unfold vadd, vscale. rewrite map2_length; rewrite ?map_length; lia.
Qed.

Lemma run_ok x0 r : length x0 = n -> Forall fin x0 -> l1f x0 <= fv alpha ->
  minimize_fw fg (l1_oracle alpha) step lipschitz tol m cb (Vanilla (K:=F64)) x0 = Ok r ->
  steps01 (fr_iters r) -> allok (fr_iters r) /\ inball (length (fr_iters r)) (fr_x r).
Proof.
  intros Lx Fx Bx E. apply minimize_fw_loop in E as (_ & a & -> & E).
  refine (@fw_loop_ind F64 fg (l1_oracle alpha) step lipschitz tol cb
    (fun it s => length (fs_iters s) = it /\ (steps01 (fs_iters s) -> allok (fs_iters s) /\ inball it (fs_x s) /\ length (fs_grad s) = n /\ num (fs_grad s)))
    (fun r => steps01 (fr_iters r) -> allok (fr_iters r) /\ inball (length (fr_iters r)) (fr_x r)) m _ m 0 _ r _ _ E).
  2:{ lia. }
  2:{ cbn [fs_iters fs_x fs_grad]. split; [reflexivity|]. intros _. split; [constructor|].
      split; [split; [exact Lx|split; [exact Fx|rewrite drift_0; exact Bx]]|]. apply Hfg; assumption. }
  intros it s o Hit [Hl Hi] Ho. cbv zeta. cbn [call_lmo l1_oracle] in Ho. split.
  { intros _ Hs. cbn [fw_finish fr_iters fr_x with_lip fs_iters fs_x] in *. destruct (Hi Hs) as (A & B & _). rewrite Hl. auto. }
  intros Hc ss lip' fgn found log1 Es stop log2 Ecb.
  pose proof (@fw_select_eval F64 fg step lipschitz _ _ _ _ _ _ _ _ _ _ _ _ Es) as Ef. cbn [with_lip fs_x] in Ef. split.
  { intros -> Hs. cbn [fw_finish fr_iters fr_x halted fs_iters fs_x] in *. destruct (Hi Hs) as (A & B & _). rewrite Hl. auto. }
  intros -> act Eact.
  assert (X : steps01 (fs_iters (stepped s it o ss lip' fgn found log2 act)) ->
     allok (fs_iters (stepped s it o ss lip' fgn found log2 act)) /\ inball (Datatypes.S it) (fs_x (stepped s it o ss lip' fgn found log2 act)) /\
     length (fs_grad (stepped s it o ss lip' fgn found log2 act)) = n /\ num (fs_grad (stepped s it o ss lip' fgn found log2 act))).
  { unfold stepped. cbn [fs_iters fs_x fs_grad]. intros Hs. pose proof (Forall_inv Hs) as H1. cbn [fi_step] in H1.
    destruct (Hi (Forall_inv_tail Hs)) as (A & B & Lg & Ng).
    pose proof (next_ok it (fs_grad s) (fs_x s) o ss Hit Lg Ng B H1 Ho) as Nx.
    split; [constructor; [exact Nx|exact A]|]. split; [exact Nx|]. rewrite Ef. destruct Nx as (L1 & F1 & _). apply Hfg; assumption. }
  split.
  - split; [unfold stepped; cbn [fs_iters length]; lia|exact X].
  - intros _ Hs. cbn [fw_finish fr_iters fr_x] in *. destruct (X Hs) as (A & B & _). split; [exact A|].
    replace (length (fs_iters (stepped s it o ss lip' fgn found log2 act))) with (Datatypes.S it); [exact B|].
    unfold stepped; cbn [fs_iters length]; lia.
Qed.
End Run.

(** the sublinear step 2/(it+2) *)
Lemma sublinear01 it : (Z.of_nat it + 2 < 2 ^ 53)%Z -> step01 (ndiv F64 (nofZ F64 2) (@nofnat F64 (it + 2))).
Proof.
  intros H. destruct (nofnat_fin (it + 2)) as [F2 V2]; [lia|].
  destruct (nofnat_fin 2) as [F1 V1]; [reflexivity|]. change (@nofnat F64 2) with (nofZ F64 2) in F1, V1.
  assert (V : 2 <= INR (it + 2)). { rewrite plus_INR. pose proof (pos_INR it). cbn [INR] in *. lra. }
  assert (V1' : fv (nofZ F64 2) = 2) by (rewrite V1; cbn; lra).
  assert (Q : 0 <= 2 / INR (it + 2) <= 1).
  { split; [apply Rle_mult_inv_pos; lra|]. apply (Rmult_le_reg_r (INR (it + 2))); [lra|]. unfold Rdiv. rewrite Rmult_assoc, Rinv_l by lra. lra. }
  assert (R1 : rnd 1 = 1). { apply rnd_repr. change 1 with (bpow radix2 0). apply repr_bpow. lia. }
  assert (RQ : 0 <= rnd (2 / INR (it + 2)) <= 1).
  { split; [rewrite <- rnd_0; apply rnd_le; lra|rewrite <- R1; apply rnd_le; lra]. }
  destruct (div_fin (nofZ F64 2) (@nofnat F64 (it + 2)) F1 F2) as [A B]; [lra| |].
  { rewrite V1', V2. rewrite Rabs_pos_eq by lra. apply Rle_lt_trans with 1; [lra|]. unfold fbig. change 1 with (bpow radix2 0). apply bpow_lt. lia. }
  rewrite V1', V2 in B. split; [apply fin_datum; exact A|].
  rewrite (leb_fin _ _ fin_0 A), (leb_fin _ _ A fin_1), fv_0, fv_1, B. unfold Rleb.
  destruct (Rle_dec 0 (rnd (2 / INR (it + 2)))); [|lra]. destruct (Rle_dec (rnd (2 / INR (it + 2))) 1); [|lra]. split; reflexivity.
Qed.

Section Sub.
Variables (n : nat) (alpha tol : F64) (fg : vec F64 -> F64 * vec F64) (cb : option (list (fw_event F64) -> bool)).
Variables (L0 : F64) (m : nat).
Hypotheses (Hn : (0 < n)%nat) (Fa : fin alpha) (Ha : 0 <= fv alpha) (Hm : (Z.of_nat m + 2 < 2 ^ 53)%Z).
Hypothesis Hfg : forall x, length x = n -> Forall fin x -> length (snd (fg x)) = n /\ num (snd (fg x)).
Hypothesis HT : drift n (fv alpha) m <= ftop.

Lemma sub_loop lip : forall k it s, (Datatypes.S k + it = m)%nat -> inball n alpha it (fs_x s) -> length (fs_grad s) = n -> num (fs_grad s) ->
  fs_active s = None -> steps01 (fs_iters s) ->
  exists r, fw_loop fg (l1_oracle alpha) (FSSublinear (K:=F64)) lip tol cb (Datatypes.S k) it s = Ok r /\ steps01 (fr_iters r).
Proof.
  induction k as [|k IH]; intros it s Hk Bx Lg Ng Ea Hs; rewrite fw_loop_unfold; cbn [call_lmo l1_oracle];
    (destruct (lmo_step n alpha n0 (fs_grad s) (fs_x s) it Hn Lg (proj1 Bx) Ng (proj1 (proj2 Bx)) Fa Ha fin_0 ltac:(rewrite fv_0; lra) (proj2 (proj2 Bx))) as (o & Eo & Ld & _ & _);
      [eapply Rle_trans; [|exact HT]; apply drift_mono; [exact Ha|lia]|]);
    rewrite Eo; cbn [bind]; cbv zeta;
    (destruct (nleb F64 (fw_cert (lmo_dir o) (fs_grad s)) tol) eqn:Ec; [eexists; split; [reflexivity|exact Hs]|]);
    unfold fw_select; cbn [bind];
    set (ss := ndiv F64 (nofZ F64 2) (@nofnat F64 (it + 2)));
    (assert (H1 : step01 ss); [apply sublinear01; lia|]);
    (destruct (cb_call _ _ _) as [stop log2] eqn:Ecb);
    (destruct stop; [eexists; split; [reflexivity|exact Hs]|]);
    unfold act_update; rewrite Ea; cbn [bind].
  - eexists. split; [reflexivity|]. cbn [fw_finish fr_iters stepped fs_iters]. constructor; [exact H1|exact Hs].
  - pose proof (next_ok n alpha m Hn Fa Ha HT it (fs_grad s) (fs_x s) o ss ltac:(lia) Lg Ng Bx H1 Eo) as Nx.
    destruct (Hfg _ (proj1 Nx) (proj1 (proj2 Nx))) as [L2 N2].
    apply IH; unfold stepped; cbn [fs_x fs_grad fs_active fs_iters]; try assumption; [lia|reflexivity|].
    constructor; [exact H1|exact Hs].
Qed.
End Sub.

Lemma drift_eq n a k : drift n a k = (1 + 8 * / 2 ^ 53) ^ k * (a + INR k * (INR n * powerRZ 2 (-1074))).
Proof.
  unfold drift. rewrite uro_pow. f_equal. f_equal. f_equal. f_equal. unfold eta. change (-1074)%Z with (1 + -1075)%Z.
  change (powerRZ 2 (1 + -1075)) with (powerRZ (IZR radix2) (1 + -1075)).
  rewrite <- bpow_powerRZ. rewrite (bpow_plus radix2 1 (-1075)). f_equal.
Qed.
Lemma ftop_eq : ftop = powerRZ 2 1000.
Proof. unfold ftop. rewrite bpow_powerRZ. reflexivity. Qed.

Lemma main_C123_iterates (n : nat) (alpha tol : F64) (fg : vec F64 -> F64 * vec F64)
    (cb : option (list (fw_event F64) -> bool)) (step : fw_strategy F64) (lipschitz : option F64) (m : nat) (x0 : vec F64) (r : fw_result F64) :
  let bound (k : nat) := (1 + 8 * / 2 ^ 53) ^ k * (fv alpha + INR k * (INR n * powerRZ 2 (-1074))) in
  (0 < n)%nat -> fin alpha -> 0 <= fv alpha -> bound m <= powerRZ 2 1000 ->
  (forall x, length x = n -> Forall fin x ->
     length (snd (fg x)) = n /\ Forall (fun g => datum g /\ nisnan g = false) (snd (fg x))) ->
  length x0 = n -> Forall fin x0 -> Rsum (map (fun a => Rabs (fv a)) x0) <= fv alpha ->
  minimize_fw fg (l1_oracle alpha) step lipschitz tol m cb (Vanilla (K:=F64)) x0 = Ok r ->
  Forall (fun i => datum (fi_step i) /\ nleb F64 n0 (fi_step i) = true /\ nleb F64 (fi_step i) n1 = true) (fr_iters r) ->
  Forall (fun i => Forall fin (fi_next i) /\ Rsum (map (fun a => Rabs (fv a)) (fi_next i)) <= bound (Datatypes.S (fi_it i))) (fr_iters r) /\
  Forall fin (fr_x r) /\ Rsum (map (fun a => Rabs (fv a)) (fr_x r)) <= bound (length (fr_iters r)).
Proof.
  intros bound Hn Fa Ha HT Hfg Lx Fx Bx E Hs. unfold bound in *. rewrite <- drift_eq, <- ftop_eq in HT.
  destruct (run_ok n alpha tol fg cb step lipschitz m Hn Fa Ha Hfg HT x0 r Lx Fx Bx E Hs) as (A & _ & B & C).
  rewrite <- drift_eq. split; [|split; [exact B|exact C]].
  eapply Forall_impl; [|exact A]. intros i (_ & X & Y). rewrite <- drift_eq. split; [exact X|exact Y].
Qed.

Lemma main_C123_sublinear (n : nat) (alpha tol : F64) (fg : vec F64 -> F64 * vec F64)
    (cb : option (list (fw_event F64) -> bool)) (lipschitz : option F64) (m : nat) (x0 : vec F64) :
  let bound (k : nat) := (1 + 8 * / 2 ^ 53) ^ k * (fv alpha + INR k * (INR n * powerRZ 2 (-1074))) in
  (0 < n)%nat -> (0 < m)%nat -> (Z.of_nat m + 2 < 2 ^ 53)%Z -> nltb F64 tol n0 = false ->
  fin alpha -> 0 <= fv alpha -> bound m <= powerRZ 2 1000 ->
  (forall x, length x = n -> Forall fin x ->
     length (snd (fg x)) = n /\ Forall (fun g => datum g /\ nisnan g = false) (snd (fg x))) ->
  length x0 = n -> Forall fin x0 -> Rsum (map (fun a => Rabs (fv a)) x0) <= fv alpha ->
  exists r, minimize_fw fg (l1_oracle alpha) (FSSublinear (K:=F64)) lipschitz tol m cb (Vanilla (K:=F64)) x0 = Ok r /\
    Forall fin (fr_x r) /\ Rsum (map (fun a => Rabs (fv a)) (fr_x r)) <= bound (length (fr_iters r)) /\
    Forall (fun i => Forall fin (fi_next i) /\ Rsum (map (fun a => Rabs (fv a)) (fi_next i)) <= bound (Datatypes.S (fi_it i))) (fr_iters r).
Proof.
  intros bound Hn Hm0 Hm Ht Fa Ha HT Hfg Lx Fx Bx. pose proof HT as HT'. unfold bound in HT'. rewrite <- drift_eq, <- ftop_eq in HT'.
  destruct m as [|m]; [lia|]. destruct (Hfg x0 Lx Fx) as [Lg Ng].
  destruct (sub_loop n alpha tol fg cb (Datatypes.S m) Hn Fa Ha Hm Hfg HT' lipschitz m 0
     (mkFwS x0 (fst (fg x0)) (snd (fg x0)) None lipschitz None None [FwEval x0] [])) as (r & Er & Hs);
    cbn [fs_x fs_grad fs_active fs_iters]; try assumption; [lia| |reflexivity|constructor|].
  { split; [exact Lx|]. split; [exact Fx|]. rewrite drift_0. exact Bx. }
  assert (E : minimize_fw fg (l1_oracle alpha) (FSSublinear (K:=F64)) lipschitz tol (Datatypes.S m) cb (Vanilla (K:=F64)) x0 = Ok r).
  { unfold minimize_fw. rewrite Ht. cbn [bind]. rewrite <- Er. destruct (fg x0); reflexivity. }
  exists r. split; [exact E|].
  destruct (main_C123_iterates n alpha tol fg cb FSSublinear lipschitz (Datatypes.S m) x0 r Hn Fa Ha HT Hfg Lx Fx Bx E Hs) as (A & B & C).
  split; [exact B|]. split; [exact C|exact A].
Qed.
