(** * Theorems about minimize_sfw: the aggregate gradient, feasibility, step sizes, the SAGA estimate *)
From Coq Require Import Reals Lra Lia List Bool ZArith Permutation.
From Verif Require Import Num Vec Spec SpecSparse RVec ConvexFacts ModelConstraint ModelPenalty PenaltyFacts PenaltyFacts2 ModelUtilsArr UtilsMain
  ModelFrankWolfe FrankWolfeConv ModelRandomized SpecFiniteSum RandomizedFacts ModelSfw SpecSfw SfwFacts SfwStep.
Import ListNotations.
Local Open Scope R_scope.

(** the oracle returns directions of the size of x *)
Definition lmo_sized (d : nat) (lmo : lmo_fun RN) : Prop :=
  forall u x a o, length u = d -> length x = d -> call_lmo lmo u x a = Ok o -> length (lmo_dir o) = d.

Lemma init_facts (P : problem RN) variant x0 a s0 : problem_wf P -> length x0 = p_d P -> sfw_init P variant x0 a = Ok s0 ->
  sw_x s0 = x0 /\ sw_dual s0 = zeros (p_n P) /\ sw_agg s0 = zeros (p_d P) /\ sw_active s0 = a /\ sw_t s0 = 0%nat /\
  state_wf P variant s0 /\ (variant = LF -> forall i, (i < p_n P)%nat -> nth i (sw_sigma s0) 0 = adot P i x0).
Proof.
  intros W L E. unfold sfw_init in E. apply bind_ok in E as (sg & Es & E).
  apply (f_equal (fun r => match r with Ok s => s | Err _ => s0 end)) in E. cbv beta iota in E. subst s0.
  cbn [sw_x sw_dual sw_agg sw_active sw_t sw_sigma].
  split; [reflexivity|]. split; [apply vzeros_R|]. split; [apply vzeros_R|]. split; [reflexivity|]. split; [reflexivity|].
  assert (Hs : variant = LF -> length sg = p_n P /\ forall i, (i < p_n P)%nat -> nth i sg 0 = adot P i x0).
  { intros ->. rewrite (mv_R P W x0 (seq 0 (p_n P)) L) in Es by (apply seq_lt; lia). injection Es as <-.
    split; [rewrite map_length, seq_length; reflexivity|]. intros i Hi.
    rewrite (nth_indep _ 0 (adot P 0%nat x0)) by (rewrite map_length, seq_length; exact Hi).
    rewrite (map_nth (fun i => adot P i x0)), seq_nth by exact Hi. reflexivity. }
  split.
  - split; [exact L|]. split; [apply repeat_length|]. split; [apply repeat_length|]. intros Hv. apply (Hs Hv).
  - intros Hv. apply (Hs Hv).
Qed.

Lemma lmo_sized_at (P : problem RN) lmo variant s : lmo_sized (p_d P) lmo -> state_wf P variant s -> sized_at P lmo s.
Proof. intros H (Lx & _) u o Lu E. apply (H u (sw_x s) (sw_active s) o Lu Lx E). Qed.

(** ** C64 *)
Lemma main_C64_aggregate : forall (pow23 : R -> R) (P : problem RN) lmo variant rule lipschitz bs tol lv max_iter draws x0 (r : sfw_result RN),
  problem_wf P -> valid_draws (p_n P) bs draws -> lmo_sized (p_d P) lmo ->
  minimize_sfw (K:=RN) pow23 P lmo variant rule lipschitz bs tol lv max_iter draws x0 = Ok r ->
  forall s, s = sr_state r \/ In s (map si_next (sr_log r)) \/ In s (map si_prev (sr_log r)) ->
  length (sw_agg s) = p_d P /\ length (sw_dual s) = p_n P /\
  forall j, (j < p_d P)%nat -> nth j (sw_agg s) 0 = dual_sum P (sw_dual s) j.
Proof.
  intros pow23 P lmo variant rule lipschitz bs tol lv max_iter draws x0 r W V Hl E.
  destruct (minimize_inv _ _ _ _ _ _ _ _ _ _ _ _ _ E) as (_ & L0 & _ & a & s0 & _ & _ & Es & Ee).
  destruct (init_facts P variant x0 a s0 W L0 Es) as (_ & Hd & Ha & _ & _ & Ws & _).
  set (good := fun s : sfw_state RN => length (sw_agg s) = p_d P /\ length (sw_dual s) = p_n P /\
    forall j, (j < p_d P)%nat -> nth j (sw_agg s) 0 = dual_sum P (sw_dual s) j).
  assert (H : state_wf P variant (sr_state r) /\ good (sr_state r) /\ Forall (fun q => good (si_prev q) /\ good (si_next q)) (sr_log r)).
  { refine (epochs_ind (K:=RN) pow23 P lmo variant rule lipschitz bs tol draws
      (fun s log => state_wf P variant s /\ good s /\ Forall (fun q => good (si_prev q) /\ good (si_next q)) log) V _ _ _ _ _ _ _ _ Ee _).
    - intros it batch s log q (F & N & _) (Wq & G & Fl) Eq.
      destruct (step_inv pow23 P lmo variant rule lipschitz bs W it batch s q Wq (lmo_sized_at _ _ _ _ Hl Wq) F N Eq)
        as (Hp & _ & _ & _ & Wn & _ & Hout & Hagg & _).
      assert (Gn : good (si_next q)).
      { destruct Wn as (_ & Ln & La & _). split; [exact La|]. split; [exact Ln|]. intros j Hj.
        etransitivity; [exact (Hagg j Hj)|]. destruct G as (_ & _ & G). etransitivity; [apply (f_equal2 Rplus (G j Hj) eq_refl)|].
        rewrite (Rsum_sub_seq (fun i => (nth i (sw_dual (si_next q)) 0 - nth i (sw_dual s) 0) * ent P i j) (p_n P) batch N F).
        - unfold dual_sum. rewrite <- Rsum_map_plus. f_equal. apply map_ext. intros i. change (carrier RN) with R. ring.
        - intros i _ Hi. rewrite (Hout i Hi). change (carrier RN) with R. ring. }
      split; [exact Wn|]. split; [exact Gn|]. constructor; [rewrite Hp; auto|exact Fl].
    - intros s log (A & B & C). split; [exact A|]. split; [exact B|exact C].
    - split; [exact Ws|]. split; [|constructor].
      destruct Ws as (_ & L1 & L2 & _). split; [exact L2|]. split; [exact L1|].
      intros j Hj. rewrite Ha, Hd, nth_zeros. unfold dual_sum. symmetry. apply Rsum_zero. intros i _. rewrite nth_zeros. ring. }
  destruct H as (_ & G & F). rewrite Forall_forall in F. intros s [->|[H|H]]; [exact G| |];
    apply in_map_iff in H as (q & <- & Hq); apply (F q Hq).
Qed.

(** SAG and SAGA: the dual variable of a sample is the derivative of its loss at the last visit *)
Lemma main_C64_dual_last_visit : forall (pow23 : R -> R) (P : problem RN) lmo variant rule lipschitz bs tol lv max_iter draws x0 (r : sfw_result RN),
  problem_wf P -> valid_draws (p_n P) bs draws -> lmo_sized (p_d P) lmo -> variant = SAG \/ variant = SAGA ->
  minimize_sfw (K:=RN) pow23 P lmo variant rule lipschitz bs tol lv max_iter draws x0 = Ok r ->
  forall newer q older, sr_log r = newer ++ q :: older ->
  forall i, (i < p_n P)%nat -> nth i (sw_dual (si_next q)) 0 =
    match last_visit (q :: older) i with Some x => / INR (p_n P) * loss_deriv P x i | None => 0 end.
Proof.
  intros pow23 P lmo variant rule lipschitz bs tol lv max_iter draws x0 r W V Hl Hv E.
  destruct (minimize_inv _ _ _ _ _ _ _ _ _ _ _ _ _ E) as (_ & L0 & _ & a & s0 & _ & _ & Es & Ee).
  destruct (init_facts P variant x0 a s0 W L0 Es) as (_ & Hd & _ & _ & _ & Ws & _).
  set (val := fun (log : list (sfw_iter RN)) (i : nat) => match last_visit log i with Some x => / INR (p_n P) * loss_deriv P x i | None => 0 end).
  set (all := fix all (log : list (sfw_iter RN)) := match log with [] => True | q :: older =>
      (forall i, (i < p_n P)%nat -> nth i (sw_dual (si_next q)) 0 = val (q :: older) i) /\ all older end).
  assert (H : state_wf P variant (sr_state r) /\ (forall i, (i < p_n P)%nat -> nth i (sw_dual (sr_state r)) 0 = val (sr_log r) i) /\ all (sr_log r)).
  { refine (epochs_ind (K:=RN) pow23 P lmo variant rule lipschitz bs tol draws
      (fun s log => state_wf P variant s /\ (forall i, (i < p_n P)%nat -> nth i (sw_dual s) 0 = val log i) /\ all log) V _ _ _ _ _ _ _ _ Ee _).
    - intros it batch s log q (F & N & _) (Wq & G & Fl) Eq.
      destruct (step_inv pow23 P lmo variant rule lipschitz bs W it batch s q Wq (lmo_sized_at _ _ _ _ Hl Wq) F N Eq)
        as (Hp & Hb & _ & _ & Wn & _ & Hout & _ & (lf & Hdf) & _).
      assert (Gn : forall i, (i < p_n P)%nat -> nth i (sw_dual (si_next q)) 0 = val (q :: log) i).
      { intros i Hi. unfold val. cbn [last_visit]. rewrite Hb, Hp. destruct (in_dec Nat.eq_dec i batch) as [Hin|Hn].
        - unfold dual_facts in Hdf. destruct Hv as [-> | ->]; apply Hdf, Hin.
        - etransitivity; [exact (Hout i Hn)|]. apply G, Hi. }
      split; [exact Wn|]. split; [exact Gn|]. split; [exact Gn|exact Fl].
    - intros s log (A & B & C). split; [exact A|]. split; [exact B|exact C].
    - split; [exact Ws|]. split; [|exact I]. intros i _. rewrite Hd. apply nth_zeros. }
  destruct H as (_ & _ & H). intros newer q older Hlog. rewrite Hlog in H. clear - H.
  induction newer as [|q' newer IH]; cbn [all app] in H; [apply H|apply IH, H].
Qed.
