(** * minimize_sfw: when it stops, and the mean of the SAGA estimate *)
From Coq Require Import Reals Lra Lia List Bool ZArith Permutation.
From Verif Require Import Num Vec Spec SpecSparse RVec ConvexFacts ModelConstraint ModelPenalty PenaltyFacts PenaltyFacts2 ModelUtilsArr UtilsMain
  ModelFrankWolfe FrankWolfeConv ConstraintFacts FrankWolfeMain2 ModelRandomized SpecFiniteSum RandomizedFacts ModelSfw SpecSfw SfwFacts SfwStep SfwMain SfwMain2.
Import ListNotations.
Local Open Scope R_scope.

Section Stop.
Context {K : Num}.
Variable pow23 : K -> K.
Variable P : problem K.
Variable lmo : lmo_fun K.
Variable variant : sfw_variant.
Variable rule : sfw_rule.
Variable lipschitz : option K.
Variable bs : nat.
Variable tol : K.
Variable draws : nat -> list nat.
Local Notation stepf := (sfw_step pow23 P lmo variant rule lipschitz bs).
Local Notation whilef := (sfw_while pow23 P lmo variant rule lipschitz bs tol).
Local Notation epochs := (sfw_epochs pow23 P lmo variant rule lipschitz bs tol draws).

Lemma step_tags it batch s r : stepf it batch s = Ok r -> si_epoch r = it /\ si_prev r = s /\ si_batch r = batch.
Proof.
  unfold sfw_step. intros E. apply bind_ok in E as (sizes & _ & E). apply bind_ok in E as (prev & _ & E).
  apply bind_ok in E as ([[dual sigma] lf] & _ & E). apply bind_ok in E as (new & _ & E). apply bind_ok in E as (u & _ & E).
  apply bind_ok in E as ([est o] & _ & E). apply bind_ok in E as (act & _ & E). injection E as <-. auto.
Qed.
Definition quiet (q : sfw_iter K) : Prop := nltb K (sfw_moved q) tol = true.
(** the invariant of the stopping logic: history [log] (newest first) of epochs up to [it] *)
Definition ordered (log : list (sfw_iter K)) : Prop :=
  forall newer q older, log = newer ++ q :: older -> quiet q -> forall p, In p newer -> (si_epoch q < si_epoch p)%nat.
Definition newest (x0 : list K) (log : list (sfw_iter K)) : list K := match log with q :: _ => sw_x (si_next q) | [] => x0 end.
Lemma while_stop x0 it : forall fuel i s succ log s' succ' log',
  whilef fuel (draws it) it i s succ log = Ok (s', succ', log') ->
  (forall q, In q log -> (si_epoch q <= it)%nat /\ (quiet q -> (si_epoch q < it)%nat)) -> ordered log -> sw_x s = newest x0 log ->
  (succ = true <-> exists q, In q log /\ quiet q) ->
  (forall q, In q log' -> (si_epoch q <= it)%nat) /\ ordered log' /\ sw_x s' = newest x0 log' /\ (succ' = true <-> exists q, In q log' /\ quiet q).
Proof.
  induction fuel as [|fuel IH]; intros i s succ log s' succ' log' E H O X S; [discriminate E|]. cbn [sfw_while] in E.
  destruct (Nat.ltb i (length (draws it))).
  - apply bind_ok in E as (r & Er & E). destruct (step_tags _ _ _ _ Er) as (Ht & _).
    assert (Or : ordered (r :: log)).
    { intros [|p newer] q older El Q p' Hp; [destruct Hp|]. cbn [app] in El. injection El as <- El.
      destruct Hp as [<-|Hp]; [|apply (O _ _ _ El Q p' Hp)]. rewrite Ht. apply H; [rewrite El; apply in_elt|exact Q]. }
    destruct (nltb K (sfw_moved r) tol) eqn:Em.
    + injection E as <- <- <-. split; [|split; [exact Or|split; [reflexivity|]]].
      * intros q [<-|Hq]; [lia|apply H, Hq].
      * split; [|reflexivity]. intros _. exists r. split; [left; reflexivity|exact Em].
    + apply (IH _ _ _ _ _ _ _ E).
      * intros q [<-|Hq]; [|apply H, Hq]. split; [lia|]. intros Q. unfold quiet in Q. congruence.
      * exact Or.
      * reflexivity.
      * rewrite S. split; [intros (q & Hq & Q); exists q; split; [right|]; assumption|].
        intros (q & [<-|Hq] & Q); [unfold quiet in Q; congruence|exists q; auto].
  - injection E as <- <- <-. split; [intros q Hq; apply H, Hq|auto].
Qed.
Lemma epochs_stop x0 : forall k it s succ log r, epochs k it s succ log = Ok r ->
  (forall q, In q log -> (si_epoch q < it)%nat) -> ordered log -> sw_x s = newest x0 log ->
  (succ = true <-> exists q, In q log /\ quiet q) ->
  (forall q, In q (sr_log r) -> (si_epoch q < it + k)%nat) /\ ordered (sr_log r) /\ sr_x r = newest x0 (sr_log r) /\ sr_nit r = (it + k - 1)%nat /\
  (sr_success r = true <-> exists q, In q (sr_log r) /\ quiet q).
Proof.
  induction k as [|k IH]; intros it s succ log r E H O X S; [discriminate E|]. cbn [sfw_epochs] in E.
  destruct (Nat.eqb bs 0); [discriminate E|]. apply bind_ok in E as ([[s' succ'] log'] & Ew & E).
  destruct (while_stop x0 it _ _ _ _ _ _ _ _ Ew) as (H' & O' & X' & S'); auto.
  { intros q Hq. specialize (H q Hq). lia. }
  destruct k as [|k].
  - injection E as <-. cbn [sr_log sr_x sr_nit sr_success]. split; [intros q Hq; specialize (H' q Hq); lia|].
    split; [exact O'|]. split; [exact X'|]. split; [lia|exact S'].
  - destruct (IH _ _ _ _ _ E) as (A & B & C & D & F); auto.
    { intros q Hq. specialize (H' q Hq). lia. }
    split; [intros q Hq; specialize (A q Hq); lia|]. split; [exact B|]. split; [exact C|]. split; [lia|exact F].
Qed.
End Stop.

Lemma main_C66_stopping_partial : forall (K : Num) (pow23 : K -> K) (P : problem K) lmo variant rule lipschitz bs (tol : K) lv max_iter draws x0 (r : sfw_result K),
  minimize_sfw pow23 P lmo variant rule lipschitz bs tol lv max_iter draws x0 = Ok r ->
  (sr_success r = true <-> exists q, In q (sr_log r) /\ nltb K (sfw_moved q) tol = true) /\
  sr_x r = match sr_log r with q :: _ => sw_x (si_next q) | [] => x0 end /\ sr_nit r = (max_iter - 1)%nat /\
  (forall newer q older, sr_log r = newer ++ q :: older -> nltb K (sfw_moved q) tol = true ->
     (* nothing more happens in that epoch; later epochs still run *)
     (forall p, In p newer -> (si_epoch q < si_epoch p)%nat) /\
     (si_epoch q = sr_nit r -> newer = [] /\ sr_x r = sw_x (si_next q))).
Proof.
  intros K pow23 P lmo variant rule lipschitz bs tol lv max_iter draws x0 r E.
  destruct (minimize_inv _ _ _ _ _ _ _ _ _ _ _ _ _ E) as (_ & _ & _ & a & s0 & _ & _ & Es & Ee).
  assert (Ex : sw_x s0 = x0). { unfold sfw_init in Es. apply bind_ok in Es as (sg & _ & Es). injection Es as <-. reflexivity. }
  destruct (epochs_stop pow23 P lmo variant rule lipschitz bs tol draws x0 _ _ _ _ _ _ Ee) as (A & B & C & D & F); auto.
  { intros q []. } { intros [|? ?] q older Hl; discriminate Hl. } { split; [discriminate|intros (q & [] & _)]. }
  split; [exact F|]. split; [exact C|]. split; [exact D|]. intros newer q older El Q. split; [exact (B newer q older El Q)|].
  intros Ht. assert (Hn : newer = []).
  { destruct newer as [|p newer]; [reflexivity|]. exfalso. pose proof (B _ _ _ El Q p ltac:(left; reflexivity)) as H1.
    pose proof (A p ltac:(rewrite El; left; reflexivity)). lia. }
  split; [exact Hn|]. rewrite C, El, Hn. reflexivity.
Qed.

(** ** C68 *)
Lemma count_perm n c (l : list nat) : Forall (fun i => (i < n)%nat) l -> (forall i, (i < n)%nat -> count_occ Nat.eq_dec l i = c) ->
  Permutation l (concat (repeat (seq 0 n) c)).
Proof.
  intros F H. apply (Permutation_count_occ Nat.eq_dec). intros i.
  assert (Hr : count_occ Nat.eq_dec (concat (repeat (seq 0 n) c)) i = (c * count_occ Nat.eq_dec (seq 0 n) i)%nat).
  { clear. induction c as [|c IH]; [reflexivity|]. cbn [repeat concat]. rewrite count_occ_app, IH. lia. }
  rewrite Hr. destruct (Nat.lt_ge_cases i n) as [Hi|Hi].
  - rewrite (H i Hi). pose proof (proj1 (NoDup_count_occ' Nat.eq_dec (seq 0 n)) (seq_NoDup n 0) i ltac:(apply in_seq; lia)). nia.
  - assert (Hz : count_occ Nat.eq_dec (seq 0 n) i = 0%nat) by (apply count_occ_not_In; rewrite in_seq; lia).
    rewrite Hz, Nat.mul_0_r. apply count_occ_not_In. intros Hin. rewrite Forall_forall in F. specialize (F i Hin). lia.
Qed.
Lemma balanced_sum n bs c L (w : nat -> R) : balanced n bs c L ->
  Rsum (map (fun b => Rsum (map w b)) L) = INR c * Rsum (map w (seq 0 n)) /\ (bs * length L = n * c)%nat.
Proof.
  intros (FB & H).
  assert (F : Forall (fun i => (i < n)%nat) (concat L)).
  { clear H. induction FB as [|b L (Hb & _) _ IH]; [constructor|]. cbn [concat]. apply Forall_app; auto. }
  pose proof (count_perm n c (concat L) F H) as Pm. split.
  - assert (Hc : forall l, Rsum (map (fun b => Rsum (map w b)) l) = Rsum (map w (concat l))).
    { clear. induction l as [|b l IH]; [reflexivity|]. cbn [map Rsum concat]. rewrite IH, map_app, Rsum_app. reflexivity. }
    rewrite Hc, (Rsum_perm _ _ (Permutation_map w Pm)), <- Hc. clear.
    induction c as [|c IH]; [cbn; ring|]. cbn [repeat map Rsum]. rewrite IH, S_INR. ring.
  - apply Permutation_length in Pm. assert (L1 : length (concat L) = (bs * length L)%nat).
    { clear - FB. induction FB as [|b L (_ & _ & Hb) _ IH]; [cbn; lia|]. cbn [concat length]. rewrite app_length, IH, Hb. lia. }
    assert (L2 : length (concat (repeat (seq 0 n) c)) = (n * c)%nat).
    { clear. induction c as [|c IH]; [cbn; lia|]. cbn [repeat concat]. rewrite app_length, seq_length, IH. lia. }
    lia.
Qed.
Lemma saga_est (pow23 : R -> R) (P : problem RN) lmo rule lipschitz bs it s batch q : problem_wf P -> lmo_sized (p_d P) lmo ->
  sfw_consistent P SAGA s -> Forall (fun i => (i < p_n P)%nat) batch -> NoDup batch -> (1 <= p_n P)%nat ->
  sfw_step (K:=RN) pow23 P lmo SAGA rule lipschitz bs it batch s = Ok q ->
  forall j, (j < p_d P)%nat -> nth j (si_est q : list R) 0 = nth j (sw_agg s : list R) 0 +
    Rsum (map (fun i => (loss_deriv P (sw_x s) i - INR (p_n P) * nth i (sw_dual s) 0) * ent P i j) batch).
Proof.
  intros W Hl (Lx & Ld & La & Ls & _) F N Hn E j Hj.
  assert (Ws : state_wf P SAGA s) by (split; [|split; [|split]]; assumption).
  destruct (step_inv pow23 P lmo SAGA rule lipschitz bs W it batch s q Ws (lmo_sized_at _ _ _ _ Hl Ws) F N E)
    as (_ & _ & _ & _ & _ & _ & _ & Hagg & (lf & _ & _ & Hd) & (_ & He) & _).
  etransitivity; [exact (He j Hj)|]. cbn iota.
  assert (Hu : nth j (sw_agg (si_next q)) 0 - nth j (sw_agg s) 0 = / INR (p_n P) *
    Rsum (map (fun i => (loss_deriv P (sw_x s) i - INR (p_n P) * nth i (sw_dual s) 0) * ent P i j) batch)).
  { etransitivity; [apply (f_equal2 Rminus (Hagg j Hj) eq_refl)|]. rewrite <- Rsum_map_mult. 
    assert (H : Rsum (map (fun i => (nth i (sw_dual (si_next q)) 0 - nth i (sw_dual s) 0) * ent P i j) batch) =
      Rsum (map (fun i => / INR (p_n P) * ((loss_deriv P (sw_x s) i - INR (p_n P) * nth i (sw_dual s) 0) * ent P i j)) batch)).
    { f_equal. apply map_ext_in. intros i Hi. etransitivity; [exact (f_equal2 Rmult (f_equal2 Rminus (Hd i Hi) eq_refl) eq_refl)|]. change (carrier RN) with R. field. apply not_0_INR. lia. }
    rewrite H. change (carrier RN) with R. ring. }
  rewrite minus_INR by exact Hn. cbn [INR].
  assert (Hn0 : INR (p_n P) <> 0) by (apply not_0_INR; lia).
  set (S := Rsum _) in *. apply (f_equal (Rmult (INR (p_n P)))) in Hu. rewrite <- Rmult_assoc, Rinv_r, Rmult_1_l in Hu by exact Hn0.
  change (carrier RN) with R in *. lra.
Qed.
Lemma main_C68_saga_mean : forall (pow23 : R -> R) (P : problem RN) lmo rule lipschitz bs it s c batches (qs : list (sfw_iter RN)),
  problem_wf P -> lmo_sized (p_d P) lmo -> (1 <= p_n P)%nat -> sfw_consistent P SAGA s -> balanced (p_n P) bs c batches ->
  Forall2 (fun b q => sfw_step (K:=RN) pow23 P lmo SAGA rule lipschitz bs it b s = Ok q) batches qs ->
  forall j, (j < p_d P)%nat -> Rsum (map (fun q : sfw_iter RN => nth j (si_est q : list R) 0) qs) =
    INR (length batches) * (nth j (sw_agg s) 0 + INR bs * (grad_F P (sw_x s) j - nth j (sw_agg s) 0)).
Proof.
  intros pow23 P lmo rule lipschitz bs it s c batches qs W Hl Hn Hc Hb F2 j Hj. pose proof Hb as (FB & _).
  destruct (balanced_sum (p_n P) bs c batches (fun i => (loss_deriv P (sw_x s) i - INR (p_n P) * nth i (sw_dual s) 0) * ent P i j) Hb) as (Hsum & Hcnt).
  assert (H1 : Rsum (map (fun q : sfw_iter RN => nth j (si_est q : list R) 0) qs) = INR (length batches) * nth j (sw_agg s) 0 +
    Rsum (map (fun b => Rsum (map (fun i => (loss_deriv P (sw_x s) i - INR (p_n P) * nth i (sw_dual s) 0) * ent P i j) b)) batches)).
  { clear Hb Hsum Hcnt. induction F2 as [|b q batches qs E F2 IH]; [cbn; ring|]. inversion FB as [|? ? (Fb & Nb & _) FB']; subst.
    cbn [map Rsum length]. rewrite (IH FB'), S_INR.
    pose proof (saga_est pow23 P lmo rule lipschitz bs it s b q W Hl Hc Fb Nb Hn E j Hj) as H. change (carrier RN) with R in *. lra. }
  rewrite H1, Hsum. destruct Hc as (_ & _ & _ & _ & Hagg). rewrite (Hagg j Hj). unfold grad_F, mean_row, dual_sum.
  set (A := Rsum (map (fun i => loss_deriv P (sw_x s) i * ent P i j) (seq 0 (p_n P)))). set (B := Rsum (map (fun i => nth i (sw_dual s) 0 * ent P i j) (seq 0 (p_n P)))).
  assert (H2 : Rsum (map (fun i => (loss_deriv P (sw_x s) i - INR (p_n P) * nth i (sw_dual s) 0) * ent P i j) (seq 0 (p_n P))) = A + - INR (p_n P) * B).
  { unfold A, B. rewrite <- Rsum_map_mult, <- Rsum_map_plus. f_equal. apply map_ext. intros i. ring. }
  rewrite H2. change (INR (length batches) * B + INR c * (A + - INR (p_n P) * B) = INR (length batches) * (B + INR bs * (/ INR (p_n P) * A - B))).
  apply (f_equal INR) in Hcnt. rewrite !mult_INR in Hcnt.
  assert (Hn0 : INR (p_n P) <> 0) by (apply not_0_INR; lia).
  replace (INR (length batches) * (B + INR bs * (/ INR (p_n P) * A - B))) with
    (INR (length batches) * B + (INR bs * INR (length batches)) * (/ INR (p_n P) * A - B)) by ring.
  rewrite Hcnt. field. exact Hn0.
Qed.
(** batches of one sample: unbiased *)
Lemma main_C68_saga_unbiased_partial : forall (pow23 : R -> R) (P : problem RN) lmo rule lipschitz it s (qs : list (sfw_iter RN)),
  problem_wf P -> lmo_sized (p_d P) lmo -> (1 <= p_n P)%nat -> sfw_consistent P SAGA s ->
  Forall2 (fun i q => sfw_step (K:=RN) pow23 P lmo SAGA rule lipschitz 1 it [i] s = Ok q) (seq 0 (p_n P)) qs ->
  forall j, (j < p_d P)%nat -> / INR (p_n P) * Rsum (map (fun q : sfw_iter RN => nth j (si_est q : list R) 0) qs) = grad_F P (sw_x s) j.
Proof.
  intros pow23 P lmo rule lipschitz it s qs W Hl Hn Hc F2 j Hj.
  assert (Hcc : concat (map (fun i => [i]) (seq 0 (p_n P))) = seq 0 (p_n P)).
  { generalize (seq 0 (p_n P)). induction l as [|a l IH]; [reflexivity|]. cbn [map concat app]. rewrite IH. reflexivity. }
  assert (Hb : balanced (p_n P) 1 1 (map (fun i => [i]) (seq 0 (p_n P)))).
  { split.
    - apply Forall_forall. intros b Hb. apply in_map_iff in Hb as (i & <- & Hi). apply in_seq in Hi.
      split; [constructor; [lia|constructor]|]. split; [repeat constructor; intros []|reflexivity].
    - intros i Hi. rewrite Hcc. apply NoDup_count_occ'; [apply seq_NoDup|apply in_seq; lia]. }
  assert (F2' : Forall2 (fun b q => sfw_step (K:=RN) pow23 P lmo SAGA rule lipschitz 1 it b s = Ok q) (map (fun i => [i]) (seq 0 (p_n P))) qs).
  { clear - F2. induction F2; constructor; auto. }
  rewrite (main_C68_saga_mean pow23 P lmo rule lipschitz 1 it s 1 _ qs W Hl Hn Hc Hb F2' j Hj), map_length, seq_length.
  cbn [INR]. field. apply not_0_INR. lia.
Qed.
(** a batch of all samples: on a fresh state the estimate is n times the gradient *)
Lemma main_C68_full_batch_estimate : forall (pow23 : R -> R) (P : problem RN) lmo rule lipschitz it x0 s q,
  problem_wf P -> lmo_sized (p_d P) lmo -> (1 <= p_n P)%nat -> length x0 = p_d P -> sfw_init (K:=RN) P SAGA x0 None = Ok s ->
  sfw_step (K:=RN) pow23 P lmo SAGA rule lipschitz (p_n P) it (seq 0 (p_n P)) s = Ok q ->
  forall j, (j < p_d P)%nat -> nth j (si_est q : list R) 0 = INR (p_n P) * grad_F P x0 j.
Proof.
  intros pow23 P lmo rule lipschitz it x0 s q W Hl Hn L0 Es E j Hj.
  destruct (init_facts P SAGA x0 None s W L0 Es) as (Hx & Hd & Ha & _ & _ & (Lx & Ld & La & Ls) & _).
  assert (Hc : sfw_consistent P SAGA s).
  { split; [exact Lx|]. split; [exact Ld|]. split; [exact La|]. split; [exact Ls|]. intros k Hk. rewrite Ha, Hd, nth_zeros.
    unfold dual_sum. symmetry. apply Rsum_zero. intros i _. rewrite nth_zeros. ring. }
  rewrite (saga_est pow23 P lmo rule lipschitz (p_n P) it s (seq 0 (p_n P)) q W Hl Hc ltac:(apply seq_lt; lia) (seq_NoDup _ _) Hn E j Hj).
  rewrite Ha, Hd, Hx, nth_zeros. unfold grad_F, mean_row.
  rewrite <- Rmult_assoc, Rinv_r, Rmult_1_l, Rplus_0_l by (apply not_0_INR; lia).
  f_equal. apply map_ext. intros i. rewrite nth_zeros. ring.
Qed.

(** two samples in one batch: off by a factor of two *)
Definition two_rows : problem RN := @mkP RN [1; 1] [0; 0]%nat [0; 1; 2]%nat 2 1 [0; 0] (fun p b => p - b) 0.
Lemma two_rows_wf : problem_wf two_rows.
Proof.
  split; [|split; [reflexivity|cbn; lia]]. split; [reflexivity|]. split; [|split; [cbn; lia|repeat constructor]].
  intros [|[|i]] Hi; cbn in *; lia.
Qed.
Lemma exact_sized d (dom : list R -> Prop) lmo (x : list R) : lmo_exact d dom lmo -> length x = d -> dom x ->
  forall u : list R, length u = d -> exists o, call_lmo lmo u x None = Ok o /\ length (lmo_dir o) = d.
Proof. intros H Lx Hx u Lu. destruct (H u x None Lu Lx Hx) as (o & E & Lo & _). eauto. Qed.
Lemma l1_sized d (alpha : R) : (0 < d)%nat -> 0 <= alpha -> lmo_sized d (l1_oracle (K:=RN) alpha).
Proof.
  intros Hd Ha u x a o Lu Lx E. assert (Hune : u <> []) by (intros ->; cbn in Lu; lia).
  destruct (l1_lmo_correct alpha u x Ha Hune (eq_trans Lx (eq_sym Lu))) as (o' & sg & idx & E' & _ & _ & _ & E4 & _).
  cbn [call_lmo l1_oracle] in E. rewrite E in E'. injection E' as <-. exact (eq_trans E4 Lx).
Qed.
Lemma main_C68_saga_unbiased_refuted : exists (P : problem RN) s q, problem_wf P /\ sfw_init (K:=RN) P SAGA [1] None = Ok s /\
  sfw_step (K:=RN) (fun t => t) P (l1_oracle (K:=RN) 1) SAGA SSublinear None 2 0 [0; 1]%nat s = Ok q /\
  balanced (p_n P) 2 1 [[0; 1]%nat] /\ nth 0 (si_est q : list R) 0 = 2 /\ grad_F P [1] 0 = 1.
Proof.
  destruct (sfw_init (K:=RN) two_rows SAGA [1] None) as [s|] eqn:Es; [|discriminate Es].
  pose proof two_rows_wf as W.
  destruct (init_facts two_rows SAGA [1] None s W eq_refl Es) as (Hx & _ & _ & Hact & _ & Ws & _).
  assert (F : Forall (fun i => (i < 2)%nat) [0; 1]%nat) by (repeat constructor).
  assert (Hl : lmo_exact 1 (l1_ball 1) (l1_oracle (K:=RN) 1)) by (apply main_C77_l1_oracle_partial; [lia|lra]).
  destruct (step_total (fun t => t) two_rows (l1_oracle (K:=RN) 1) SAGA SSublinear None 2 W 0 [0; 1]%nat s) as (q & Eq); auto.
  { left. split; [reflexivity|discriminate]. } { apply (seq_NoDup 2 0). }
  { rewrite Hx. apply (exact_sized 1 (l1_ball 1)); [exact Hl|reflexivity|]. unfold l1_ball. cbn. rewrite Rabs_R1. lra. }
  exists two_rows, s, q. split; [exact W|]. split; [exact Es|]. split; [exact Eq|].
  split. { split; [repeat constructor; cbn; intuition lia|]. intros [|[|i]] Hi; [reflexivity|reflexivity|cbn in Hi; lia]. }
  assert (Hg : grad_F two_rows [1] 0 = 1).
  { unfold grad_F, mean_row, loss_deriv, adot, ent. cbn [p_n p_d p_data p_indices p_indptr p_b p_fd two_rows seq map Rsum].
    unfold csr_entry. cbn. lra. }
  split; [|exact Hg].
  rewrite (main_C68_full_batch_estimate (fun t => t) two_rows (l1_oracle (K:=RN) 1) SSublinear None 0 [1] s q W
    (l1_sized 1 1 ltac:(lia) ltac:(lra)) ltac:(cbn; lia) eq_refl Es Eq 0 ltac:(cbn; lia)), Hg. cbn. lra.
Qed.
