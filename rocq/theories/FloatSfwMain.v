(** * minimize_sfw on the l1 ball in binary64 (C132) *)
From Coq Require Import ZArith Reals Lra Lia Bool List.
From Coq Require Import Floats.SpecFloat.
From Flocq Require Import Core.Core.
From Verif Require Import Num Vec Spec SpecSparse RVec ModelConstraint ModelUtilsArr ModelFrankWolfe ModelRandomized SpecFiniteSum ModelSfw SpecSfw SfwFacts
  FloatBase FloatSum FloatPair FloatPair2 FloatSimplex2 FloatBall FloatBallMain FloatSfw.
Import ListNotations.
Local Open Scope R_scope.

Lemma batch_le n bs batch : batch_ok n bs batch -> (bs <= n)%nat.
Proof.
  intros (F & N & L). rewrite <- L, <- (seq_length n 0). apply NoDup_incl_length; [exact N|].
  intros i Hi. apply in_seq. rewrite Forall_forall in F. specialize (F i Hi). lia.
Qed.

Section Run.
Variables (pow23 : F64 -> F64) (P : problem F64) (alpha : F64) (variant : sfw_variant) (rule : sfw_rule) (lipschitz : option F64) (bs : nat) (tol : F64) (draws : nat -> list nat) (m : nat).
Local Notation d := (p_d P).
Hypotheses (Hv : valid_draws (p_n P) bs draws) (Hd : (0 < d)%nat) (Fa : fin alpha) (Ha : 0 <= fv alpha) (HT : drift d (fv alpha) m <= ftop).

Definition moved (log : list (sfw_iter F64)) : Prop := Forall (fun q => num (si_est q) /\ step01 (si_gamma q)) log.
Definition placed (log : list (sfw_iter F64)) : Prop := forall j q, nth_error (rev log) j = Some q -> inball d alpha (Datatypes.S j) (sw_x (si_next q)).
Definition J (s : sfw_state F64) (log : list (sfw_iter F64)) : Prop :=
  length (sw_agg s) = d /\ sw_active s = None /\ ((length log <= m)%nat -> moved log -> placed log /\ inball d alpha (length log) (sw_x s)).
Lemma J_run k r s0 : J s0 [] -> sfw_epochs pow23 P (l1_oracle alpha) variant rule lipschitz bs tol draws k 0 s0 false [] = Ok r -> J (sr_state r) (sr_log r).
Proof.
  intros H0 E. refine (epochs_ind pow23 P (l1_oracle alpha) variant rule lipschitz bs tol draws J Hv _ _ _ _ _ _ _ _ E H0).
  - intros it batch s log q _ (La & Hn & H) Eq.
    destruct (sfw_shape _ _ _ _ _ _ _ _ _ _ _ Eq La) as (_ & Ec & Ex & Le & La' & _ & Hn' & _). split; [exact La'|]. split; [apply Hn', Hn|].
    cbn [length]. intros Hl Hm. pose proof (Forall_inv Hm) as (N1 & G1). pose proof (Forall_inv_tail Hm) as Hm'. destruct (H ltac:(lia) Hm') as (Hp & Hx).
    assert (Nx : inball d alpha (Datatypes.S (length log)) (sw_x (si_next q))).
    { rewrite Ex. apply (next_ok d alpha m Hd Fa Ha HT (length log) (si_est q) (sw_x s) (si_lmo q) (si_gamma q)); [lia|exact Le|exact N1|exact Hx|exact G1|exact Ec]. }
    split; [|exact Nx]. intros j p Hj. cbn [rev] in Hj. destruct (Nat.lt_ge_cases j (length (rev log))) as [Hlt|Hge].
    + rewrite nth_error_app1 in Hj by exact Hlt. apply (Hp j p Hj).
    + rewrite nth_error_app2 in Hj by exact Hge. destruct (j - length (rev log))%nat as [|i] eqn:Ei; [|destruct i; discriminate Hj].
      injection Hj as <-. rewrite rev_length in *. replace j with (length log) by lia. exact Nx.
  - intros s log (A & B & C). split; [exact A|]. split; [exact B|exact C].
Qed.
End Run.
Section Sizes.
Variables (pow23 : F64 -> F64) (P : problem F64) (alpha : F64) (variant : sfw_variant) (lipschitz : option F64) (bs : nat) (tol : F64) (draws : nat -> list nat).
Hypotheses (Hv : valid_draws (p_n P) bs draws) (Hvar : variant <> OtherSfw) (Hb : (1 <= bs)%nat) (Hn : (Z.of_nat (p_n P) < 2 ^ 53)%Z).
Definition Js (b : nat) (s : sfw_state F64) (log : list (sfw_iter F64)) : Prop :=
  length (sw_agg s) = p_d P /\ (sw_t s + b <= length log)%nat /\ ((Z.of_nat (length log) + 7 < 2 ^ 53)%Z -> Forall (fun q => step01 (si_gamma q)) log).
Lemma sizes_run k r s0 : Js 0 s0 [] -> sfw_epochs pow23 P (l1_oracle alpha) variant SSublinear lipschitz bs tol draws k 0 s0 false [] = Ok r -> Js 0 (sr_state r) (sr_log r).
Proof.
  intros H0 E. refine (epochs_ind2 pow23 P (l1_oracle alpha) variant SSublinear lipschitz bs tol draws (Js 0) (Js 1) Hv _ _ _ _ _ _ _ _ _ E H0).
  - intros it batch s log q Hbt (La & Ht & H) Eq. destruct (sfw_shape _ _ _ _ _ _ _ _ _ _ _ Eq La) as (_ & _ & _ & _ & La' & Et & _ & Hg).
    split; [exact La'|]. split; [cbn [length]; lia|]. cbn [length]. intros Hl. constructor; [|apply H; lia].
    rewrite (Hg eq_refl). apply sizes01; [exact Hvar| |exact Hn|lia]. split; [exact Hb|apply (batch_le _ _ _ Hbt)].
  - intros s log (A & B & C). split; [exact A|]. split; [lia|exact C].
  - intros s log (A & B & C). split; [exact A|]. split; [cbn [sfw_tick sw_t]; lia|exact C].
Qed.
End Sizes.

Lemma main_C132_iterates : forall (pow23 : F64 -> F64) (P : problem F64) (alpha : F64) variant rule lipschitz bs tol max_iter draws (x0 : vec F64) (r : sfw_result F64),
  let bound (k : nat) := (1 + 8 * / 2 ^ 53) ^ k * (fv alpha + INR k * (INR (p_d P) * powerRZ 2 (-1074))) in
  valid_draws (p_n P) bs draws -> (0 < p_d P)%nat -> fin alpha -> 0 <= fv alpha ->
  Forall fin x0 -> Rsum (map (fun a => Rabs (fv a)) x0) <= fv alpha ->
  minimize_sfw pow23 P (l1_oracle alpha) variant rule lipschitz bs tol (Vanilla (K:=F64)) max_iter draws x0 = Ok r ->
  bound (length (sr_log r)) <= powerRZ 2 1000 ->
  (* no estimate of the gradient has a nan, and the steps lie in [0, 1] *)
  Forall (fun q => Forall (fun g => datum g /\ nisnan g = false) (si_est q) /\
                   datum (si_gamma q) /\ nleb F64 n0 (si_gamma q) = true /\ nleb F64 (si_gamma q) n1 = true) (sr_log r) ->
  (forall j q, nth_error (rev (sr_log r)) j = Some q ->
     Forall fin (sw_x (si_next q)) /\ Rsum (map (fun a => Rabs (fv a)) (sw_x (si_next q))) <= bound (Datatypes.S j)) /\
  Forall fin (sr_x r) /\ Rsum (map (fun a => Rabs (fv a)) (sr_x r)) <= bound (length (sr_log r)).
Proof.
  intros pow23 P alpha variant rule lipschitz bs tol max_iter draws x0 r bound V Hd Fa Ha Fx Bx E HT Hm.
  assert (Eb : forall k, bound k = drift (p_d P) (fv alpha) k) by (intros k; unfold bound; rewrite drift_eq; reflexivity).
  destruct (minimize_inv _ _ _ _ _ _ _ _ _ _ _ _ _ E) as (Hvar & L0 & _ & a & s0 & _ & Hna & Es & Ee). specialize (Hna eq_refl). subst a.
  assert (Hs : sw_x s0 = x0 /\ length (sw_agg s0) = p_d P /\ sw_active s0 = None).
  { unfold sfw_init in Es. apply bind_ok in Es as (sg & _ & Es). injection Es as <-. cbn. split; [reflexivity|]. split; [apply repeat_length|reflexivity]. }
  destruct Hs as (Ex & La & Hn).
  destruct (J_run pow23 P alpha variant rule lipschitz bs tol draws (length (sr_log r)) V Hd Fa Ha ltac:(rewrite <- Eb, ftop_eq; exact HT) max_iter r s0) as (_ & _ & H).
  { split; [exact La|]. split; [exact Hn|]. intros _ _. split; [intros [|j] q Hq; discriminate Hq|]. rewrite Ex. split; [exact L0|]. split; [exact Fx|]. cbn [length]. rewrite drift_0. exact Bx. }
  { exact Ee. }
  destruct (H ltac:(lia) Hm) as (A & B & C & D). split.
  - intros j q Hq. destruct (A j q Hq) as (_ & X & Y). rewrite Eb. split; [exact X|exact Y].
  - rewrite (result_x _ _ _ _ _ _ _ _ _ _ _ _ _ _ _ Ee), Eb. split; [exact C|exact D].
Qed.
Lemma main_C132_sublinear : forall (pow23 : F64 -> F64) (P : problem F64) (alpha : F64) variant lipschitz bs tol max_iter draws (x0 : vec F64) (r : sfw_result F64),
  let bound (k : nat) := (1 + 8 * / 2 ^ 53) ^ k * (fv alpha + INR k * (INR (p_d P) * powerRZ 2 (-1074))) in
  valid_draws (p_n P) bs draws -> (0 < p_d P)%nat -> fin alpha -> 0 <= fv alpha ->
  Forall fin x0 -> Rsum (map (fun a => Rabs (fv a)) x0) <= fv alpha ->
  minimize_sfw pow23 P (l1_oracle alpha) variant SSublinear lipschitz bs tol (Vanilla (K:=F64)) max_iter draws x0 = Ok r ->
  bound (length (sr_log r)) <= powerRZ 2 1000 -> (Z.of_nat (p_n P) < 2 ^ 53)%Z -> (Z.of_nat (length (sr_log r)) + 7 < 2 ^ 53)%Z ->
  Forall (fun q => datum (si_gamma q) /\ nleb F64 n0 (si_gamma q) = true /\ nleb F64 (si_gamma q) n1 = true) (sr_log r) /\
  (Forall (fun q => Forall (fun g => datum g /\ nisnan g = false) (si_est q)) (sr_log r) ->
   (forall j q, nth_error (rev (sr_log r)) j = Some q ->
     Forall fin (sw_x (si_next q)) /\ Rsum (map (fun a => Rabs (fv a)) (sw_x (si_next q))) <= bound (Datatypes.S j)) /\
   Forall fin (sr_x r) /\ Rsum (map (fun a => Rabs (fv a)) (sr_x r)) <= bound (length (sr_log r))).
Proof.
  intros pow23 P alpha variant lipschitz bs tol max_iter draws x0 r bound V Hd Fa Ha Fx Bx E HT Hn Hl.
  destruct (minimize_inv _ _ _ _ _ _ _ _ _ _ _ _ _ E) as (Hvar & L0 & _ & a & s0 & _ & Hna & Es & Ee). specialize (Hna eq_refl). subst a.
  destruct (epochs_bs _ _ _ _ _ _ _ _ _ _ _ _ _ _ _ Ee) as (Hb & _).
  assert (Hs : Js P 0 s0 []).
  { unfold sfw_init in Es. apply bind_ok in Es as (sg & _ & Es). injection Es as <-. split; [apply repeat_length|]. split; [cbn; lia|constructor]. }
  destruct (sizes_run pow23 P alpha variant lipschitz bs tol draws V Hvar Hb Hn max_iter r s0 Hs Ee) as (_ & _ & H). specialize (H Hl).
  split; [exact H|]. intros Hest. apply (main_C132_iterates pow23 P alpha variant SSublinear lipschitz bs tol max_iter draws x0 r V Hd Fa Ha Fx Bx E HT).
  apply Forall_forall. intros q Hq. rewrite Forall_forall in Hest, H. split; [apply Hest, Hq|apply H, Hq].
Qed.
