(** * Facts about the model of minimize_sfw *)
From Coq Require Import Reals Lra Lia List Bool ZArith Permutation.
From Verif Require Import Num Vec Spec SpecSparse RVec ConvexFacts ModelConstraint ModelPenalty PenaltyFacts ModelUtilsArr UtilsMain
  ModelFrankWolfe FrankWolfeConv ModelRandomized SpecFiniteSum RandomizedFacts ModelSfw SpecSfw.
Import ListNotations.
Local Open Scope R_scope.

(** ** batches *)
Definition batch_ok (n bs : nat) (batch : list nat) : Prop :=
  Forall (fun i => (i < n)%nat) batch /\ NoDup batch /\ length batch = bs.
Lemma firstn_in {A} (a : A) : forall k l, In a (firstn k l) -> In a l.
Proof. intros k l H. rewrite <- (firstn_skipn k l). apply in_or_app; auto. Qed.
Lemma skipn_in {A} (a : A) : forall k l, In a (skipn k l) -> In a l.
Proof. intros k l H. rewrite <- (firstn_skipn k l). apply in_or_app; auto. Qed.
Lemma draw_batch n bs draws it k : valid_draws n bs draws -> (1 <= bs)%nat -> (k * bs < length (draws it))%nat ->
  batch_ok n bs (slice (draws it) (k * bs) (Nat.min (k * bs + bs) n)).
Proof.
  intros V Hb Hk. destruct (V it) as (F & V1 & V2). unfold slice.
  assert (Hf : forall a b, Forall (fun i => (i < n)%nat) (firstn a (skipn b (draws it)))).
  { intros a b. apply Forall_forall. intros i Hi. rewrite Forall_forall in F. apply F. eapply skipn_in, firstn_in, Hi. }
  destruct (Nat.eq_dec bs 1) as [->|Hne].
  - specialize (V1 eq_refl). rewrite Nat.mul_1_r in *. rewrite Nat.min_l by lia.
    replace (k + 1 - k)%nat with 1%nat by lia.
    assert (L : length (firstn 1 (skipn k (draws it))) = 1%nat) by (rewrite firstn_length, skipn_length; lia).
    split; [apply Hf|]. split; [|exact L]. destruct (firstn 1 (skipn k (draws it))) as [|a [|b l]]; try discriminate L.
    repeat constructor. intros [].
  - destruct (V2 Hne) as (L & N). rewrite L in Hk.
    assert (Hk' : (k < n / bs)%nat) by nia.
    assert (Hm : (k * bs + bs <= n)%nat). { pose proof (Nat.mul_div_le n bs ltac:(lia)). nia. }
    rewrite Nat.min_l by lia. replace (k * bs + bs - k * bs)%nat with bs by lia.
    split; [apply Hf|]. split; [apply N, Hk'|]. rewrite firstn_length, skipn_length. nia.
Qed.

Section Gen.
Context {K : Num}.
Variable pow23 : K -> K.
Variable P : problem K.
Variable lmo : lmo_fun K.
Variable variant : sfw_variant.
Variable rule : sfw_rule.
Variable lipschitz : option K.
Variable bs : nat.
Variable tol : K.
Variable draws : nat -> list nat.
Local Notation stepf := (sfw_step pow23 P lmo variant rule lipschitz bs).
Local Notation whilef := (sfw_while pow23 P lmo variant rule lipschitz bs tol).
Local Notation epochs := (sfw_epochs pow23 P lmo variant rule lipschitz bs tol draws).

(** induction over a run; the invariant sees the state and the history *)
Section Ind.
Variable J : sfw_state K -> list (sfw_iter K) -> Prop.
Hypothesis Hv : valid_draws (p_n P) bs draws.
Hypothesis Jstep : forall it batch s log r, batch_ok (p_n P) bs batch -> J s log -> stepf it batch s = Ok r -> J (si_next r) (r :: log).
Hypothesis Jtick : forall s log, J s log -> J (sfw_tick s) log.
Lemma while_ind it : forall fuel k s succ log s' succ' log', (1 <= bs)%nat ->
  whilef fuel (draws it) it (k * bs) s succ log = Ok (s', succ', log') -> J s log -> J s' log'.
Proof.
  induction fuel as [|fuel IH]; intros k s succ log s' succ' log' Hb E H; [discriminate E|].
  cbn [sfw_while] in E. destruct (Nat.ltb_spec (k * bs) (length (draws it))) as [Hlt|Hge].
  - apply bind_ok in E as (r & Er & E).
    pose proof (Jstep _ _ _ _ _ (draw_batch _ _ _ _ _ Hv Hb Hlt) H Er) as H1.
    destruct (nltb K (sfw_moved r) tol).
    + injection E as <- <- <-. exact H1.
    + replace (k * bs + bs)%nat with (S k * bs)%nat in E by lia.
      apply (IH (S k) _ _ _ _ _ _ Hb E). apply Jtick, H1.
  - injection E as <- <- <-. exact H.
Qed.
Lemma epochs_ind : forall k it s succ log r, epochs k it s succ log = Ok r -> J s log -> J (sr_state r) (sr_log r).
Proof.
  induction k as [|k IH]; intros it s succ log r E H; [discriminate E|]. cbn [sfw_epochs] in E.
  destruct (Nat.eqb_spec bs 0) as [|Hb]; [discriminate E|].
  apply bind_ok in E as ([[s' succ'] log'] & Ew & E).
  assert (H1 : J s' log') by (apply (while_ind it (S (length (draws it))) 0 s succ log s' succ' log'); auto; lia).
  destruct k as [|k].
  - injection E as <-. exact H1.
  - apply (IH _ _ _ _ _ E H1).
Qed.
End Ind.

(** the same with an invariant [Q] between the step and the increment of the counter *)
Section Ind2.
Variables J Q : sfw_state K -> list (sfw_iter K) -> Prop.
Hypothesis Hv : valid_draws (p_n P) bs draws.
Hypothesis Jstep : forall it batch s log r, batch_ok (p_n P) bs batch -> J s log -> stepf it batch s = Ok r -> Q (si_next r) (r :: log).
Hypothesis Jbreak : forall s log, Q s log -> J s log.
Hypothesis Jtick : forall s log, Q s log -> J (sfw_tick s) log.
Lemma while_ind2 it : forall fuel k s succ log s' succ' log', (1 <= bs)%nat ->
  whilef fuel (draws it) it (k * bs) s succ log = Ok (s', succ', log') -> J s log -> J s' log'.
Proof.
  induction fuel as [|fuel IH]; intros k s succ log s' succ' log' Hb E H; [discriminate E|].
  cbn [sfw_while] in E. destruct (Nat.ltb_spec (k * bs) (length (draws it))) as [Hlt|Hge].
  - apply bind_ok in E as (r & Er & E).
    pose proof (Jstep _ _ _ _ _ (draw_batch _ _ _ _ _ Hv Hb Hlt) H Er) as H1.
    destruct (nltb K (sfw_moved r) tol).
    + injection E as <- <- <-. apply Jbreak, H1.
    + replace (k * bs + bs)%nat with (S k * bs)%nat in E by lia.
      apply (IH (S k) _ _ _ _ _ _ Hb E). apply Jtick, H1.
  - injection E as <- <- <-. exact H.
Qed.
Lemma epochs_ind2 : forall k it s succ log r, epochs k it s succ log = Ok r -> J s log -> J (sr_state r) (sr_log r).
Proof.
  induction k as [|k IH]; intros it s succ log r E H; [discriminate E|]. cbn [sfw_epochs] in E.
  destruct (Nat.eqb_spec bs 0) as [|Hb]; [discriminate E|].
  apply bind_ok in E as ([[s' succ'] log'] & Ew & E).
  assert (H1 : J s' log') by (apply (while_ind2 it (S (length (draws it))) 0 s succ log s' succ' log'); auto; lia).
  destruct k as [|k].
  - injection E as <-. exact H1.
  - apply (IH _ _ _ _ _ E H1).
Qed.
End Ind2.

Lemma result_x : forall k it s succ log r, epochs k it s succ log = Ok r -> sr_x r = sw_x (sr_state r).
Proof.
  induction k as [|k IH]; intros it s b l r Ee; [discriminate Ee|]. cbn [sfw_epochs] in Ee.
  destruct (Nat.eqb bs 0); [discriminate Ee|]. apply bind_ok in Ee as ([[s' b'] l'] & _ & Ee).
  destruct k; [injection Ee as <-; reflexivity|]. apply (IH _ _ _ _ _ Ee).
Qed.
Lemma epochs_bs : forall k it s succ log r, epochs k it s succ log = Ok r -> (1 <= bs)%nat /\ (1 <= k)%nat.
Proof. intros [|k] it s b l r Ee; [discriminate Ee|]. cbn [sfw_epochs] in Ee. destruct (Nat.eqb_spec bs 0); [discriminate Ee|lia]. Qed.
Lemma minimize_inv lv max_iter x0 r :
  minimize_sfw pow23 P lmo variant rule lipschitz bs tol lv max_iter draws x0 = Ok r ->
  variant <> OtherSfw /\ length x0 = p_d P /\ (rule = SDR -> lipschitz <> None) /\
  exists a s0, (a = None \/ exists rp, a = Some [(rp, n1)]) /\ (lv = Vanilla -> a = None) /\ sfw_init P variant x0 a = Ok s0 /\
    epochs max_iter 0 s0 false [] = Ok r.
Proof.
  unfold minimize_sfw. intros E. 
  assert (Hv : variant <> OtherSfw) by (destruct variant; congruence). split; [exact Hv|].
  replace (match variant with OtherSfw => Err ValueError | _ => _ end) with
    (a <- match lv with Vanilla => Ok None | Pairwise r => Ok (Some [(r, n1)]) | OtherVariant => Err ValueError end ;;
     if negb (Nat.eqb (length x0) (p_d P)) then Err ValueError else
     s <- sfw_init P variant x0 a ;;
     match rule, lipschitz with SDR, None => Err ValueError | _, _ => epochs max_iter 0 s false [] end) in E
    by (destruct variant; try reflexivity; congruence).
  apply bind_ok in E as (a & Ea & E).
  destruct (Nat.eqb_spec (length x0) (p_d P)) as [L|]; [|discriminate E]. cbn [negb] in E.
  apply bind_ok in E as (s0 & Es & E). split; [exact L|].
  assert (Hr : rule = SDR -> lipschitz <> None) by (intros Hr Hl; rewrite Hr, Hl in E; discriminate E).
  split; [exact Hr|]. exists a, s0. split; [|split; [|split; [exact Es|]]].
  - destruct lv; try discriminate Ea; injection Ea as <-; eauto.
  - intros ->. injection Ea as <-. reflexivity.
  - destruct rule, lipschitz; try exact E. discriminate E.
Qed.
End Gen.

(** total-correctness variant *)
Section Tot.
Context {K : Num}.
Variable pow23 : K -> K.
Variable P : problem K.
Variable lmo : lmo_fun K.
Variable variant : sfw_variant.
Variable rule : sfw_rule.
Variable lipschitz : option K.
Variable bs : nat.
Variable tol : K.
Variable draws : nat -> list nat.
Variable G : sfw_state K -> Prop.
Hypothesis Hb : (1 <= bs)%nat.
Hypothesis Hv : valid_draws (p_n P) bs draws.
Hypothesis Gstep : forall it batch s, batch_ok (p_n P) bs batch -> G s ->
  exists r, sfw_step pow23 P lmo variant rule lipschitz bs it batch s = Ok r /\ G (si_next r).
Hypothesis Gtick : forall s, G s -> G (sfw_tick s).
Lemma while_total it : forall fuel k s succ log, (length (draws it) - k * bs < fuel)%nat -> G s ->
  exists s' succ' log', sfw_while pow23 P lmo variant rule lipschitz bs tol fuel (draws it) it (k * bs) s succ log = Ok (s', succ', log') /\ G s'.
Proof.
  induction fuel as [|fuel IH]; intros k s succ log Hf H; [lia|]; cbn [sfw_while].
  - destruct (Nat.ltb_spec (k * bs) (length (draws it))) as [Hlt|Hge].
    + destruct (Gstep it _ s (draw_batch _ _ _ _ _ Hv Hb Hlt) H) as (r & Er & Hr). rewrite Er. cbn [bind].
      destruct (nltb K (sfw_moved r) tol); [eauto 6|].
      replace (k * bs + bs)%nat with (S k * bs)%nat by lia.
      destruct (IH (S k) (sfw_tick (si_next r)) succ (r :: log)) as (s' & succ' & log' & E & H'); [lia|apply Gtick, Hr|eauto 6].
    + eauto 6.
Qed.
Lemma epochs_total : forall k it s succ log, (1 <= k)%nat -> G s ->
  exists r, sfw_epochs pow23 P lmo variant rule lipschitz bs tol draws k it s succ log = Ok r.
Proof.
  induction k as [|k IH]; intros it s succ log Hk H; [lia|]. cbn [sfw_epochs].
  destruct (Nat.eqb_spec bs 0); [lia|].
  destruct (while_total it (S (length (draws it))) 0 s succ log ltac:(lia) H) as (s' & succ' & log' & E & H').
  cbn [Nat.mul] in E. rewrite E. cbn [bind]. destruct k as [|k]; [eauto|]. apply IH; [lia|exact H'].
Qed.
End Tot.
