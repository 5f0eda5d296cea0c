(** * FloatRuns: concrete float64 inputs for the theorems of PropsFloat *)
From Coq Require Import ZArith Reals Lra Lia Bool List.
From Coq Require Import Floats.SpecFloat.
From Flocq Require Import Core.Core IEEE754.BinarySingleNaN.
From Verif Require Import Num Vec Spec SpecSparse RVec ModelConstraint ModelPenalty ModelUtilsArr ConstraintFacts FloatBase FloatProx FloatSum FloatSimplex3 FloatSimplex4.
Import ListNotations.
Local Open Scope R_scope.

Definition f3 : F64 := nofZ F64 3.
Definition fm1 : F64 := nofZ F64 (-1).
Definition fhalf : F64 := nlit 1 2.
Definition ftenth : F64 := nlit 1 10.

Lemma fin_c (x : F64) : (is_finite_SF x && SpecFloat.valid_binary 53 1024 x)%bool = true -> fin x.
Proof. intros H. apply andb_true_iff in H as [H1 H2]. split; assumption. Qed.
Lemma fv_le_c (x y : F64) : fin x -> fin y -> nleb F64 x y = true -> fv x <= fv y.
Proof. intros Fx Fy H. rewrite leb_fin in H by assumption. apply Rleb_iff, H. Qed.
Lemma fv_lt_c (x y : F64) : fin x -> fin y -> nltb F64 x y = true -> fv x < fv y.
Proof. intros Fx Fy H. rewrite ltb_fin in H by assumption. apply Rltb_iff, H. Qed.
Lemma f3_v : fv f3 = 3.
Proof. unfold fv, SF2R, F2R. simpl. lra. Qed.
Lemma fm1_v : fv fm1 = -1.
Proof. unfold fv, SF2R, F2R. simpl. lra. Qed.
Lemma fhalf_v : fv fhalf = / 2.
Proof. unfold fv, SF2R, F2R. simpl. lra. Qed.

Lemma big_c r : r <= 100 -> r <= powerRZ 2 1020.
Proof.
  intros H. rewrite two1020. apply Rle_trans with (bpow radix2 7); [simpl; lra|]. apply bpow_le. lia.
Qed.
Definition vrun : list F64 := [f3; fm1; fhalf].
Lemma vrun_abs : Rsum (fabs vrun) = 9 / 2.
Proof.
  unfold vrun, fabs. cbn [map Rsum]. rewrite f3_v, fm1_v, fhalf_v.
  unfold Rabs. repeat destruct Rcase_abs; lra.
Qed.
Lemma run_C110 : fin (nmul F64 n1 ftenth) /\ 0 <= fv (nmul F64 n1 ftenth) /\
  l1norm_prox n1 [nlit 3 10; nlit (-1) 20; fm1] ftenth = [S754_finite false 7205759403792793 (-55); S754_zero false; S754_finite true 8106479329266893 (-53)].
Proof.
  assert (F : fin (nmul F64 n1 ftenth)) by (apply fin_c; vm_compute; reflexivity).
  split; [exact F|]. split; [rewrite <- fv_0; apply fv_le_c; [apply fin_0|exact F|vm_compute; reflexivity]|].
  vm_compute. reflexivity.
Qed.
Lemma run_C111 : fin f3 /\ 0 <= fv f3 /\
  linf_prox f3 [nofZ F64 7; fm1; S754_infinity true; S754_nan] = [f3; fm1; nopp F64 f3; S754_nan].
Proof.
  split; [apply fin_c; vm_compute; reflexivity|]. split; [rewrite f3_v; lra|]. vm_compute. reflexivity.
Qed.
(** rows [0.1 0 0.1+3], [0 1/2 0] *)
Definition drun : list F64 := [ftenth; ftenth; f3; fhalf].
Lemma run_C113 :
  Forall datum drun /\ Forall datum vrun /\ Forall (csr_row_wf 4 [0;3;4]%nat [2;0;2;1]%nat 3) [1;0;1]%nat /\
  (exists r, fast_csr_mv (K:=F64) drun [0;3;4]%nat [2;0;2;1]%nat vrun [1;0;1]%nat = Ok r /\ Forall fin r) /\
  (exists r, fast_csr_vm (K:=F64) vrun drun [0;3;4]%nat [2;0;2;1]%nat 3 [1;0;1]%nat = Ok r /\ Forall fin r).
Proof.
  split; [repeat constructor|]. split; [repeat constructor|].
  split; [repeat constructor; simpl; try lia; unfold csr_row; simpl; repeat constructor; lia|].
  assert (Hall : forall r : list F64, forallb (fun x => is_finite_SF x && SpecFloat.valid_binary 53 1024 x) r = true -> Forall fin r).
  { intros r H. apply Forall_forall. intros x Hx. rewrite forallb_forall in H. apply fin_c, H, Hx. }
  split; (eexists; split; [vm_compute; reflexivity|apply Hall; vm_compute; reflexivity]).
Qed.
Lemma vrun_fin : Forall fin vrun.
Proof. repeat constructor. Qed.
Lemma vrun_range : Forall (fun a => Rabs (fv a) <= 4503599627370496 * fv n1) vrun.
Proof.
  rewrite fv_1. unfold vrun. repeat constructor; rewrite ?f3_v, ?fm1_v, ?fhalf_v; unfold Rabs; destruct Rcase_abs; lra.
Qed.
Lemma vrun_big : INR 3 * (Rsum (fabs vrun) + fv n1) <= powerRZ 2 1020.
Proof. apply big_c. rewrite vrun_abs, fv_1. simpl. lra. Qed.
(** projections of (3, -1, 1/2) on the simplex and the l1 ball of radius 1, and the guaranteed accuracy *)
Lemma run_C114 :
  (exists p, is_projection (simplex 1) (map fv vrun) p /\
     exists w, simplex_prox n1 vrun = Ok w /\ w = [n1; n0; n0] /\
     forall i, (i < 3)%nat -> Rabs (fv (nth i w n0) - nth i p 0) <= simplex_err 10 3 (11 / 2)) /\
  (exists p, is_projection (l1_ball 1) (map fv vrun) p /\
     exists w, l1ball_prox n1 vrun = Ok w /\ w = [n1; nopp F64 n0; n0] /\
     forall i, (i < 3)%nat -> Rabs (fv (nth i w n0) - nth i p 0) <= simplex_err 12 3 (11 / 2)).
Proof.
  assert (Hne : vrun <> []) by discriminate. assert (Hne' : map fv vrun <> []) by discriminate.
  assert (Fs : fin n1) by apply fin_1. assert (Hs : 0 < fv n1) by (rewrite fv_1; lra).
  assert (Hn : (Z.of_nat (length vrun) <= 2 ^ 50)%Z) by (simpl; lia).
  assert (EB : Rsum (fabs vrun) + fv n1 = 11 / 2) by (rewrite vrun_abs, fv_1; lra).
  split.
  - destruct (proj_simplex_correct (map fv vrun) (fv n1) Hne' Hs) as (p & _ & Hp). exists p.
    split; [rewrite <- fv_1; exact Hp|].
    destruct (main_C114_simplex vrun n1 p Hne vrun_fin Fs Hs Hn vrun_big) as (w & Ew & _ & Hw).
    + eapply Forall_impl; [|exact vrun_range]. intros a Ha. eapply Rle_trans; [apply Rle_abs|exact Ha].
    + apply Exists_cons_hd. rewrite f3_v, fv_1. lra.
    + exact Hp.
    + exists w. split; [exact Ew|]. split; [vm_compute in Ew; injection Ew as <-; reflexivity|].
      rewrite EB in Hw. intros i Hi. apply Hw, Hi.
  - destruct (proj_l1ball_correct (map fv vrun) (fv n1) Hs) as (p & _ & Hp & _). exists p.
    split; [rewrite <- fv_1; exact Hp|].
    destruct (main_C114_l1ball vrun n1 p vrun_fin Fs Hs Hn vrun_big vrun_range Hp) as (w & Ew & _ & Hw).
    exists w. split; [exact Ew|]. split; [vm_compute in Ew; injection Ew as <-; reflexivity|].
    rewrite EB in Hw. intros i Hi. apply Hw, Hi.
Qed.
(** 1e17 and two zeros, radius 1; 1e17, 3 and -2, radius 1 *)
Lemma run_C115 : let a := nofZ F64 100000000000000000 in
  fin a /\ 36028797018963968 * fv n1 <= fv a /\
  simplex_prox n1 [a; n0; n0] = Err IndexError /\
  simplex_prox n1 [a; f3; nofZ F64 (-2)] = Err IndexError /\ l1ball_prox n1 [a; f3; nofZ F64 (-2)] = Err IndexError.
Proof.
  intros a. split; [apply fin_c; vm_compute; reflexivity|].
  split; [rewrite fv_1; unfold a, fv, SF2R, F2R; simpl; lra|].
  split; [|split]; vm_compute; reflexivity.
Qed.
