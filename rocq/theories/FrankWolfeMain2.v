(** * Frank-Wolfe: closed lemmas behind the property theorems (pairwise variant, arguments, callback) *)
From Coq Require Import ZArith QArith Reals List Bool Lra Lia Psatz.
From Verif Require Import Num Vec Spec RVec ModelConstraint ModelFrankWolfe ConvexFacts ConstraintFacts FrankWolfeFacts FrankWolfeConv FrankWolfeMain.
From Verif Require FrankWolfePair FrankWolfePairRun.
Import ListNotations.
Open Scope R_scope.

Notation convex_decomposition := FrankWolfePair.convex_decomposition.
Notation weight := FrankWolfePair.weight.
Notation step_hyp_pair := FrankWolfePairRun.step_hyp_pair.

(** ** C45 *)
Lemma main_C45_decomposition : forall n (alpha : R) fg step lipschitz tol max_iter cb (sg : R) i0 (r : fw_result RN),
  let x0 := vertex n (alpha * sg) i0 in
  0 <= alpha -> (i0 < n)%nat -> Rabs sg <= 1 -> grad_ok n fg -> step_hyp_pair fg x0 step lipschitz ->
  @minimize_fw RN fg (l1_pairwise_oracle (K:=RN) alpha) step lipschitz tol max_iter cb (@Pairwise RN (sg, i0)) x0 = Ok r ->
  (exists a, fr_active r = Some a /\ convex_decomposition n alpha a (fr_x r)) /\
  (forall l : fw_locals RN, In (FwCallback l) (fr_log r) \/ In (FwStep l) (fr_log r) ->
     exists a, fl_active l = Some a /\ convex_decomposition n alpha a (fl_x l)) /\
  l1_ball alpha (fr_x r) /\ (forall i : fw_iter RN, In i (fr_iters r) -> l1_ball alpha (fi_x i)).
Proof.
  intros n alpha fg step lipschitz tol m cb sg i0 r x0 Ha Hi Hsg Hg Hs E.
  pose proof (tol_nonneg _ _ _ _ _ _ _ _ _ _ E) as Ht.
  assert (Hx0 : length x0 = n) by apply vertex_length.
  assert (Hn : (0 < n)%nat) by lia.
  destruct (FrankWolfePairRun.pair_run n alpha fg step lipschitz tol cb x0 Ha Hn Hg Ht Hx0 Hs sg i0 m r Hi Hsg eq_refl E) as ((A & B & C & D & F) & _).
  split; [exact B|]. split.
  - intros l Hl. rewrite Forall_forall in C. destruct Hl as [Hl|Hl]; exact (C _ Hl).
  - split.
    + destruct B as (a & _ & B). eapply FrankWolfePair.decomposition_ball; eauto.
    + intros i Hin. rewrite Forall_forall in D. apply (D i Hin).
Qed.

Lemma main_C45_step_too_large : forall (d : list (R * nat * R)) (fw away : R * nat) (step : R),
  NoDup (map fst d) -> fw <> away -> weight d away < step ->
  @update_active_set RN d fw away step = Err ValueError.
Proof.
  intros d fw away step Hn Hne Hw. apply (proj1 (FrankWolfePair.update_spec d fw away step Hn)).
  destruct (FrankWolfePair.keq away fw); [congruence|]. lra.
Qed.

Lemma main_C45_returns : forall n (alpha : R) fg step lipschitz tol max_iter cb (sg : R) i0,
  let x0 := vertex n (alpha * sg) i0 in
  0 <= alpha -> (i0 < n)%nat -> Rabs sg <= 1 -> grad_ok n fg -> step_hyp_pair fg x0 step lipschitz ->
  match step with FSBacktracking => True | FSDR => lipschitz <> None | _ => False end ->
  0 <= tol -> (0 < max_iter)%nat ->
  exists r, @minimize_fw RN fg (l1_pairwise_oracle (K:=RN) alpha) step lipschitz tol max_iter cb (@Pairwise RN (sg, i0)) x0 = Ok r.
Proof.
  intros n alpha fg step lipschitz tol m cb sg i0 x0 Ha Hi Hsg Hg Hs Hst Ht Hm.
  assert (Hx0 : length x0 = n) by apply vertex_length.
  assert (Hn : (0 < n)%nat) by lia.
  destruct m as [|k]; [lia|].
  destruct (FrankWolfePairRun.pair_total n alpha fg step lipschitz tol cb x0 Ha Hn Hg Ht Hx0 Hs Hst k 0 _
    (FrankWolfePairRun.pair_init n alpha fg step lipschitz x0 Hn Hx0 Hs sg i0 Hi Hsg eq_refl)
    (@fw_inv_init RN fg _ lipschitz tol x0 _)) as (r & E).
  exists r. unfold minimize_fw. change (nltb RN tol n0) with (Rltb tol 0). rewrite Rltb_false by exact Ht. cbn [bind].
  destruct (fg x0). exact E.
Qed.

(** C42 and C44 for the pairwise variant *)
Lemma main_C42_certificate_bound_pairwise : forall n (alpha : R) fg step lipschitz tol max_iter cb (sg : R) i0 (r : fw_result RN),
  let x0 := vertex n (alpha * sg) i0 in
  0 <= alpha -> (i0 < n)%nat -> Rabs sg <= 1 -> grad_ok n fg -> first_order n (objective fg) (gradient fg) ->
  step_hyp_pair fg x0 step lipschitz ->
  @minimize_fw RN fg (l1_pairwise_oracle (K:=RN) alpha) step lipschitz tol max_iter cb (@Pairwise RN (sg, i0)) x0 = Ok r ->
  (forall (i : fw_iter RN) y, In i (fr_iters r) -> length y = n -> l1_ball alpha y ->
     objective fg (fi_x i) - objective fg y <= fi_cert i) /\
  (fr_exit r <> ExitMaxIter -> forall y, length y = n -> l1_ball alpha y -> objective fg (fr_x r) - objective fg y <= fr_cert r) /\
  (fr_exit r = ExitGap -> forall y, length y = n -> l1_ball alpha y ->
     objective fg (fr_x r) - objective fg y <= fr_cert r <= tol).
Proof.
  intros n alpha fg step lipschitz tol m cb sg i0 r x0 Ha Hi Hsg Hg Hf Hs E.
  pose proof (tol_nonneg _ _ _ _ _ _ _ _ _ _ E) as Ht.
  assert (Hx0 : length x0 = n) by apply vertex_length.
  assert (Hn : (0 < n)%nat) by lia.
  destruct (FrankWolfePairRun.pair_run n alpha fg step lipschitz tol cb x0 Ha Hn Hg Ht Hx0 Hs sg i0 m r Hi Hsg eq_refl E) as ((A & B & C & D & F) & G & H).
  assert (Hit : Forall (fw_iter_ok fg (l1_pairwise_oracle (K:=RN) alpha) tol) (fr_iters r)).
  { apply minimize_fw_loop in E as (_ & a & -> & E).
    refine (@fw_loop_ind RN fg _ step lipschitz tol cb (fun it s => fw_inv fg _ tol x0 it s)
      (fun r => Forall (fw_iter_ok fg (l1_pairwise_oracle (K:=RN) alpha) tol) (fr_iters r)) m _ m 0 _ r _ _ E).
    2:{ lia. } 2:{ apply fw_inv_init. }
    intros it s o Hit Hv Ho. cbv zeta. split; [intros _; apply Hv|].
    intros Hc ss lip' fgn found log1 Hsl stop log2 Hcb. split; [intros _; apply Hv|].
    intros _ act _. assert (Hv' : fw_inv fg (l1_pairwise_oracle (K:=RN) alpha) tol x0 (S it) (stepped s it o ss lip' fgn found log2 act))
      by (eapply fw_inv_step; eassumption).
    split; [exact Hv'|]. intros _. apply Hv'. }
  split; [|split].
  - intros i y Hin Hy Hby. rewrite Forall_forall in D, Hit. destruct (D i Hin) as (_ & _ & _ & _ & D5 & _).
    apply (D5 (objective fg) (gradient fg)); auto. destruct (Hit i Hin) as (Hi1 & _). unfold gradient. rewrite <- Hi1. reflexivity.
  - intros Hex. apply (G Hex (objective fg) (gradient fg)); auto.
  - intros Hex y Hy Hby. split; [|exact (H Hex)]. apply (G ltac:(congruence) (objective fg) (gradient fg)); auto.
Qed.

Lemma main_C44_descent_pairwise : forall n (alpha : R) fg lipschitz tol max_iter cb (sg : R) i0 (r : fw_result RN),
  let x0 := vertex n (alpha * sg) i0 in
  0 <= alpha -> (i0 < n)%nat -> Rabs sg <= 1 -> grad_ok n fg -> step_hyp_pair fg x0 FSBacktracking lipschitz ->
  @minimize_fw RN fg (l1_pairwise_oracle (K:=RN) alpha) FSBacktracking lipschitz tol max_iter cb (@Pairwise RN (sg, i0)) x0 = Ok r ->
  Forall (fun i : fw_iter RN => fi_found i = true ->
    objective fg (fi_next i) <= objective fg (fi_x i) - / 2 * (fi_step i * fi_cert i) + EPS /\ 0 < fi_cert i /\ 0 <= fi_step i) (fr_iters r) /\
  (Forall (fun i : fw_iter RN => fi_found i = true) (fr_iters r) ->
    objective fg (fr_x r) <= objective fg x0 + INR (length (fr_iters r)) * EPS).
Proof.
  intros n alpha fg lipschitz tol m cb sg i0 r x0 Ha Hi Hsg Hg Hs E.
  pose proof (tol_nonneg _ _ _ _ _ _ _ _ _ _ E) as Ht.
  assert (Hx0 : length x0 = n) by apply vertex_length.
  assert (Hn : (0 < n)%nat) by lia.
  destruct (FrankWolfePairRun.pair_run n alpha fg FSBacktracking lipschitz tol cb x0 Ha Hn Hg Ht Hx0 Hs sg i0 m r Hi Hsg eq_refl E) as ((A & B & C & D & F) & G & H).
  split; [|exact (F eq_refl)]. eapply Forall_impl; [|exact D].
  intros i (_ & _ & D3 & D4 & _ & D6) Hfo. split; [exact (D6 eq_refl Hfo)|]. auto.
Qed.

(** ** C46 *)
Lemma main_C46_drop_step_refuted : forall (d : list (R * nat * R)) (fw away : R * nat) (step : R),
  NoDup (map fst d) -> fw <> away -> step = weight d away ->
  exists d', @update_active_set RN d fw away step = Ok d' /\ In away (map fst d') /\ weight d' away = 0.
Proof.
  intros d fw away step Hn Hne ->. destruct (proj2 (FrankWolfePair.update_spec d fw away (weight d away) Hn)) as (d' & E & N & W & _ & K).
  { destruct (FrankWolfePair.keq away fw); [congruence|]. lra. }
  exists d'. split; [exact E|]. split; [apply K; auto|].
  rewrite W. destruct (FrankWolfePair.keq away fw); [congruence|]. destruct (FrankWolfePair.keq away away); [lra|congruence].
Qed.

Lemma main_C46_weights_partial : forall (d : list (R * nat * R)) (fw away : R * nat) (step : R),
  NoDup (map fst d) -> fw <> away -> step <= weight d away ->
  exists d', @update_active_set RN d fw away step = Ok d' /\ NoDup (map fst d') /\
    weight d' fw = weight d fw + step /\ weight d' away = weight d away - step /\
    (forall k, k <> fw -> k <> away -> weight d' k = weight d k) /\
    (forall k, In k (map fst d') <-> k = fw \/ k = away \/ In k (map fst d)).
Proof.
  intros d fw away step Hn Hne Hw. destruct (proj2 (FrankWolfePair.update_spec d fw away step Hn)) as (d' & E & N & W & _ & K).
  { destruct (FrankWolfePair.keq away fw); [congruence|]. lra. }
  exists d'. split; [exact E|]. split; [exact N|].
  split. { rewrite W. destruct (FrankWolfePair.keq fw fw); [|congruence]. destruct (FrankWolfePair.keq fw away); [congruence|lra]. }
  split. { rewrite W. destruct (FrankWolfePair.keq away fw); [congruence|]. destruct (FrankWolfePair.keq away away); [lra|congruence]. }
  split; [|exact K]. intros k H1 H2. rewrite W.
  destruct (FrankWolfePair.keq k fw); [congruence|]. destruct (FrankWolfePair.keq k away); [congruence|lra].
Qed.

(** the consequence: a run that stops moving at a non-optimal point, whatever max_iter *)
Definition stall_fg (x : vec QN) : QN * vec QN :=
  match x with
  | [a; b] => (nmul QN (nlit 1 2) (nadd QN (nsq (nadd QN a (nlit 3 2))) (nsq (nsub QN b (nofZ QN 2)))), [nadd QN a (nlit 3 2); nsub QN b (nofZ QN 2)])
  | _ => (n0, x)
  end.
Notation stall_run m := (minimize_fw (K:=QN) stall_fg (l1_pairwise_oracle (K:=QN) (nofZ QN 1)) FSDR (Some (nofZ QN 1)) (nlit 1 10) m None
  (@Pairwise QN (nofZ QN 1, 0%nat)) [nofZ QN 1; nofZ QN 0]).
Lemma fw_loop_step {K : Num} fg lmo step lipschitz tol k it (s : fw_state K) o ss lip' fgn found log1 act :
  call_lmo lmo (vopp (fs_grad s)) (fs_x s) (fs_active s) = Ok o ->
  nleb K (fw_cert (lmo_dir o) (fs_grad s)) tol = false ->
  fw_select fg step lipschitz (with_lip s (cur_lip fg s o)) it (fw_cert (lmo_dir o) (fs_grad s)) (cur_lip fg s o) (lmo_dir o)
         (nsq (vnorm (lmo_dir o))) (lmo_max_step o) = Ok (ss, lip', fgn, found, log1) ->
  act_update s o ss = Ok act ->
  fw_loop fg lmo step lipschitz tol None (S k) it s =
    match k with
    | O => Ok (fw_finish None (stepped s it o ss lip' fgn found log1 act) it (fw_cert (lmo_dir o) (fs_grad s)) o (Some fgn) ExitMaxIter)
    | S _ => fw_loop fg lmo step lipschitz tol None k (S it) (stepped s it o ss lip' fgn found log1 act)
    end.
Proof.
  intros Ho Hc Hs Ha. rewrite fw_loop_unfold, Ho. cbn [bind]. cbv zeta. rewrite Hc, Hs. cbn [bind cb_call]. rewrite Ha. reflexivity.
Qed.

Notation sq1 := (nofZ QN 1). Notation sqm := (nofZ QN (-1)). Notation sq0 := (nofZ QN 0).
Definition stall_x : vec QN := [sqm; sq0].
Definition stall_a2 : active QN := [((sqm, 0%nat), sq1); ((sq1, 1%nat), sq0); ((sq1, 0%nat), sq0)].
Definition stall_core (s : fw_state QN) : Prop :=
  fs_x s = stall_x /\ fs_f s = fst (stall_fg stall_x) /\ fs_grad s = snd (stall_fg stall_x) /\
  fs_lip s = Some sq1 /\ fs_active s = Some stall_a2.
Notation stall_loop := (fw_loop (K:=QN) stall_fg (l1_pairwise_oracle (K:=QN) sq1) FSDR (Some sq1) (nlit 1 10) None).
Ltac stall_step :=
  match goal with |- context [fw_loop (K:=QN) ?fg ?lmo ?st ?l ?t None (S ?k) ?it ?s] =>
    let o := eval vm_compute in (match call_lmo lmo (vopp (fs_grad s)) (fs_x s) (fs_active s) with Ok o => o | Err _ => mkLmo [] None None n0 end) in
    let sel := eval vm_compute in (match fw_select (K:=QN) fg st l (with_lip s (cur_lip fg s o)) it (fw_cert (lmo_dir o) (fs_grad s)) (cur_lip fg s o) (lmo_dir o)
         (nsq (vnorm (lmo_dir o))) (lmo_max_step o) with Ok r => r | Err _ => (n0, n0, (n0, []), false, []) end) in
    match sel with
    | (?ss, ?lip', ?fgn, ?found, ?log1) =>
       let act := eval vm_compute in (match act_update s o ss with Ok a => a | Err _ => None end) in
       rewrite (fw_loop_step (K:=QN) fg lmo st l t k it s o ss lip' fgn found log1 act);
       [|vm_compute; reflexivity|vm_compute; reflexivity|vm_compute; reflexivity|vm_compute; reflexivity]
    end
  end.
Definition stalled (x : result (fw_result QN)) : Prop :=
  match x with Ok r => fr_x r = stall_x /\ fr_cert r = nlit 5 2 /\ fr_exit r = ExitMaxIter | Err _ => False end.
Lemma stall_core_loop : forall k it s, stall_core s -> stalled (stall_loop (S k) it s).
Proof.
  induction k as [|k IH]; intros it s (A & B & C & D & E); destruct s as [x f g old lip act ss log iters];
    cbn [fs_x fs_f fs_grad fs_lip fs_active] in *; subst.
  - stall_step. vm_compute. repeat split; reflexivity.
  - stall_step. apply IH. vm_compute. repeat split; reflexivity.
Qed.
Lemma main_C46_stall_refuted : forall max_iter, (2 <= max_iter)%nat ->
  exists r, minimize_fw (K:=QN) stall_fg (l1_pairwise_oracle (K:=QN) (nofZ QN 1)) FSDR (Some (nofZ QN 1)) (nlit 1 10) max_iter None
      (@Pairwise QN (nofZ QN 1, 0%nat)) [nofZ QN 1; nofZ QN 0] = Ok r /\
    fr_x r = [nofZ QN (-1); nofZ QN 0] /\ fr_cert r = nlit 5 2 /\ fr_exit r = ExitMaxIter /\
    fst (stall_fg [nlit (-1) 4; nlit 3 4]) = nlit 25 16 /\ fst (stall_fg (fr_x r)) = nlit 17 8.
Proof.
  intros m Hm. assert (H : stalled (stall_run m)).
  { destruct m as [|[|k]]; [lia|lia|]. unfold minimize_fw.
    change (nltb QN (nlit 1 10) n0) with false. cbn [bind].
    destruct (stall_fg [nofZ QN 1; nofZ QN 0]) as [f0 g0] eqn:E0. vm_compute in E0. injection E0 as <- <-.
    stall_step. stall_step. destruct k as [|k].
    - vm_compute. repeat split; reflexivity.
    - apply stall_core_loop. vm_compute. repeat split; reflexivity. }
  unfold stalled in H. destruct (stall_run m) as [r|]; [|destruct H]. destruct H as (A & B & C).
  exists r. split; [reflexivity|]. rewrite A. split; [reflexivity|]. split; [exact B|]. split; [exact C|].
  split; vm_compute; reflexivity.
Qed.

(** ** C48 *)
Lemma main_C48_arguments : forall (K : Num) fg lmo step lipschitz tol max_iter cb variant (x0 : vec K),
  (nltb K tol n0 = true -> minimize_fw fg lmo step lipschitz tol max_iter cb variant x0 = Err ValueError) /\
  (variant = OtherVariant -> minimize_fw fg lmo step lipschitz tol max_iter cb variant x0 = Err ValueError) /\
  (nltb K tol n0 = false -> variant <> OtherVariant -> max_iter = 0%nat ->
     minimize_fw fg lmo step lipschitz tol max_iter cb variant x0 = Err UnboundLocalError).
Proof.
  intros K fg lmo step lipschitz tol m cb variant x0. unfold minimize_fw. split; [|split].
  - intros ->. reflexivity.
  - intros ->. destruct (nltb K tol n0); reflexivity.
  - intros -> Hv ->. destruct variant; [| |congruence]; cbn [bind]; destruct (fg x0); reflexivity.
Qed.
Lemma main_C48_step_checked_partial : forall (K : Num) fg lmo step lipschitz tol max_iter cb variant (x0 : vec K) o,
  step = FSOther \/ (step = FSDR /\ lipschitz = None) ->
  nltb K tol n0 = false -> (0 < max_iter)%nat ->
  match variant with Vanilla => call_lmo lmo (vopp (snd (fg x0))) x0 None = Ok o
    | Pairwise v => call_lmo lmo (vopp (snd (fg x0))) x0 (Some [(v, n1)]) = Ok o | OtherVariant => False end ->
  nleb K (fw_cert (lmo_dir o) (snd (fg x0))) tol = false ->
  minimize_fw fg lmo step lipschitz tol max_iter cb variant x0 = Err ValueError.
Proof.
  intros K fg lmo step lipschitz tol m cb variant x0 o Hs Ht Hm Hv Hc. unfold minimize_fw. rewrite Ht.
  destruct m as [|k]; [lia|].
  destruct variant as [|v|]; [| |destruct Hv]; cbn [bind]; destruct (fg x0) as [f0 g0] eqn:E0; cbn [snd] in *;
    rewrite fw_loop_unfold; cbn [fs_grad fs_x fs_active fs_lip]; match goal with |- context [bind (call_lmo ?a ?b ?c ?d) _] => replace (call_lmo a b c d) with (@Ok (lmo_out K) o) by (symmetry; exact Hv) end; cbn [bind]; cbv zeta; rewrite Hc; unfold fw_select;
    destruct Hs as [->|[-> ->]]; reflexivity.
Qed.
Lemma main_C48_step_unchecked_refuted : forall (K : Num) fg lmo step lipschitz tol max_iter cb variant (x0 : vec K) o,
  nltb K tol n0 = false -> (0 < max_iter)%nat ->
  match variant with Vanilla => call_lmo lmo (vopp (snd (fg x0))) x0 None = Ok o
    | Pairwise v => call_lmo lmo (vopp (snd (fg x0))) x0 (Some [(v, n1)]) = Ok o | OtherVariant => False end ->
  nleb K (fw_cert (lmo_dir o) (snd (fg x0))) tol = true ->
  exists r, minimize_fw fg lmo step lipschitz tol max_iter cb variant x0 = Ok r /\ fr_x r = x0 /\ fr_iters r = [].
Proof.
  intros K fg lmo step lipschitz tol m cb variant x0 o Ht Hm Hv Hc. unfold minimize_fw. rewrite Ht.
  destruct m as [|k]; [lia|].
  destruct variant as [|v|]; [| |destruct Hv]; cbn [bind]; destruct (fg x0) as [f0 g0] eqn:E0; cbn [snd] in *;
    rewrite fw_loop_unfold; cbn [fs_grad fs_x fs_active fs_lip]; match goal with |- context [bind (call_lmo ?a ?b ?c ?d) _] => replace (call_lmo a b c d) with (@Ok (lmo_out K) o) by (symmetry; exact Hv) end; cbn [bind]; cbv zeta; rewrite Hc;
    eexists; (split; [reflexivity|]); split; reflexivity.
Qed.

(** all logged calls of the callback returned something else than False *)
Definition fw_quiet {K : Num} (c : list (fw_event K) -> bool) (log : list (fw_event K)) : Prop :=
  forall pre l rest, log = pre ++ FwCallback l :: rest -> c (FwCallback l :: rest) = false.
Lemma fw_quiet_app {K : Num} c (pre log : list (fw_event K)) :
  Forall (fun e => match e with FwCallback _ => False | _ => True end) pre -> fw_quiet c log -> fw_quiet c (pre ++ log).
Proof.
  induction pre as [|e pre IH]; intros Hp Hq; [exact Hq|].
  intros pre' l rest E. destruct pre' as [|e' pre']; cbn [app] in E.
  - injection E as -> _. destruct (Forall_inv Hp).
  - injection E as _ E. exact (IH (Forall_inv_tail Hp) Hq _ _ _ E).
Qed.
Lemma main_C48_callback : forall (K : Num) fg lmo step lipschitz tol max_iter c variant (x0 : vec K) r,
  minimize_fw fg lmo step lipschitz tol max_iter (Some c) variant x0 = Ok r ->
  exists l_end rest, fr_log r = FwCallback l_end :: rest /\ fl_x l_end = fr_x r /\
  match fr_exit r with
  | ExitCallback => exists l rest', rest = FwCallback l :: rest' /\ c (FwCallback l :: rest') = true /\
      fl_x l = fr_x r /\ fr_x r = fw_last x0 (fr_iters r) /\ fr_nit r = length (fr_iters r) /\ fw_quiet c rest'
  | _ => fw_quiet c rest
  end.
Proof.
  intros K fg lmo step lipschitz tol m c variant x0 r E. apply minimize_fw_loop in E as (_ & a & _ & E).
  refine (@fw_loop_ind K fg lmo step lipschitz tol (Some c) (fun it s => fw_inv fg lmo tol x0 it s /\ fw_quiet c (fs_log s))
    (fun r => exists l_end rest, fr_log r = FwCallback l_end :: rest /\ fl_x l_end = fr_x r /\
  match fr_exit r with
  | ExitCallback => exists l rest', rest = FwCallback l :: rest' /\ c (FwCallback l :: rest') = true /\
      fl_x l = fr_x r /\ fr_x r = fw_last x0 (fr_iters r) /\ fr_nit r = length (fr_iters r) /\ fw_quiet c rest'
  | _ => fw_quiet c rest
  end) m _ m 0 _ r _ _ E).
  2:{ lia. }
  2:{ split; [apply fw_inv_init|]. intros pre0 l0 rest0 H0; destruct pre0 as [|e0 [|e1 pre0]]; discriminate H0. }
  intros it s o Hit (Hv & Hq) Ho. cbv zeta. split.
  - intros _. eexists _, _. split; [reflexivity|]. split; [reflexivity|]. exact Hq.
  - intros Hc ss lip' fgn found log1 Hs stop log2 Hcb.
    destruct (@fw_select_log K fg step lipschitz _ _ _ _ _ _ _ _ _ _ _ _ Hs) as (pre & -> & Hpre).
    pose proof (fw_quiet_app c pre _ Hpre Hq) as Hq1. unfold cb_call in Hcb. injection Hcb as Hst <-. split.
    + intros ->. eexists _, _. split; [reflexivity|]. split; [reflexivity|].
      cbn [fr_exit fw_finish]. eexists _, _. split; [reflexivity|]. split; [exact Hst|].
      split; [reflexivity|]. destruct Hv as (_ & V2 & _ & V4 & _). split; [exact V2|]. split; [symmetry; exact V4|]. exact Hq1.
    + intros -> act Hact.
      assert (Hq2 : fw_quiet c (FwCallback (mkFwL (fs_x s) (fs_f s) (fs_grad s) it (fw_cert (lmo_dir o) (fs_grad s)) (Some ss) (Some fgn) (fs_active s)) :: pre ++ fs_log s)).
      { intros pre' l rest H. destruct pre' as [|e pre']; cbn [app] in H.
        - injection H as <- <-. exact Hst.
        - injection H as _ H. exact (Hq1 _ _ _ H). }
      split.
      * split; [eapply fw_inv_step; eassumption|exact Hq2].
      * intros _. eexists _, _. split; [reflexivity|]. split; [reflexivity|]. exact Hq2.
Qed.

(** ** C49 *)
Lemma main_C49_certificate_partial : forall (K : Num) fg lmo step lipschitz tol max_iter cb variant (x0 : vec K) r,
  minimize_fw fg lmo step lipschitz tol max_iter cb variant x0 = Ok r ->
  match fr_exit r with
  | ExitMaxIter => exists i rest, fr_iters r = i :: rest /\ fr_x r = fi_next i /\ fr_cert r = vdot (lmo_dir (fi_lmo i)) (vopp (snd (fg (fi_x i)))) /\
      nleb K (fr_cert r) tol = false /\ length (fr_iters r) = max_iter
  | _ => call_lmo lmo (vopp (snd (fg (fr_x r)))) (fr_x r) (fr_active r) = Ok (fr_lmo r) /\
      fr_cert r = vdot (lmo_dir (fr_lmo r)) (vopp (snd (fg (fr_x r))))
  end.
Proof.
  intros K fg lmo step lipschitz tol m cb variant x0 r E. apply minimize_fw_loop in E as (_ & a & _ & E).
  refine (@fw_loop_ind K fg lmo step lipschitz tol cb (fun it s => fw_inv fg lmo tol x0 it s)
    (fun r => match fr_exit r with
  | ExitMaxIter => exists i rest, fr_iters r = i :: rest /\ fr_x r = fi_next i /\ fr_cert r = vdot (lmo_dir (fi_lmo i)) (vopp (snd (fg (fi_x i)))) /\
      nleb K (fr_cert r) tol = false /\ length (fr_iters r) = m
  | _ => call_lmo lmo (vopp (snd (fg (fr_x r)))) (fr_x r) (fr_active r) = Ok (fr_lmo r) /\
      fr_cert r = vdot (lmo_dir (fr_lmo r)) (vopp (snd (fg (fr_x r))))
  end) m _ m 0 _ r _ _ E).
  2:{ lia. } 2:{ apply fw_inv_init. }
  intros it s o Hit Hv Ho. cbv zeta.
  assert (Hgr : snd (fg (fs_x s)) = fs_grad s) by (rewrite <- (proj1 Hv); reflexivity). split.
  - intros _. cbn. rewrite Hgr. auto.
  - intros Hc ss lip' fgn found log1 Hs stop log2 Hcb. split.
    + intros _. cbn. rewrite Hgr. auto.
    + intros _ act Hact. split; [eapply fw_inv_step; eassumption|].
      intros Hm. cbn. eexists _, _. split; [reflexivity|]. split; [reflexivity|]. cbn. rewrite Hgr.
      split; [reflexivity|]. split; [exact Hc|]. destruct Hv as (_ & _ & _ & V & _). rewrite V. exact Hm.
Qed.

Definition half_sq (x : vec QN) : QN * vec QN := (nmul QN (nlit 1 2) (vdot x x), x).
Lemma main_C49_certificate_refuted : exists r,
  minimize_fw (K:=QN) half_sq (l1_oracle (K:=QN) n1) FSDR (Some n1) (nlit 1 10) 1 None Vanilla [n1] = Ok r /\
  fr_exit r = ExitMaxIter /\
  fr_x r = [nofZ QN 0] /\ fr_cert r = nofZ QN 2 /\
  match call_lmo (l1_oracle (K:=QN) n1) (vopp (snd (half_sq (fr_x r)))) (fr_x r) None with
  | Ok o => vdot (lmo_dir o) (vopp (snd (half_sq (fr_x r)))) = nofZ QN 0
  | Err _ => False
  end.
Proof.
  match goal with |- exists r, ?c = Ok r /\ _ => 
    let v := eval vm_compute in c in
    match v with Ok ?r => exists r end end.
  repeat split; vm_compute; reflexivity.
Qed.

(** ** C77 *)
Lemma main_C77_simplex_lmo_refuted : forall (K : Num) fg s step lipschitz tol max_iter cb variant (x0 : vec K),
  nltb K tol n0 = false -> variant <> OtherVariant -> (0 < max_iter)%nat ->
  minimize_fw fg (simplex_oracle s) step lipschitz tol max_iter cb variant x0 = Err TypeError.
Proof.
  intros K fg s step lipschitz tol m cb variant x0 Ht Hv Hm. unfold minimize_fw. rewrite Ht.
  destruct m as [|k]; [lia|]. destruct variant; [| |congruence]; cbn [bind]; destruct (fg x0); reflexivity.
Qed.

(** ** The l1 ball meets the hypotheses of the vanilla theorems *)
Lemma main_C77_l1_oracle_partial : forall n (alpha : R), (0 < n)%nat -> 0 <= alpha ->
  lmo_exact n (l1_ball alpha) (l1_oracle (K:=RN) alpha) /\ convex_set n (l1_ball alpha).
Proof.
  intros n alpha Hn Ha. split.
  - intros u x a Hu Hx Hb.
    assert (Hune : u <> []) by (intros ->; cbn in Hu; lia).
    destruct (l1_lmo_correct alpha u x Ha Hune (eq_trans Hx (eq_sym Hu))) as (o & sg & idx & E & _ & _ & E3 & E4 & _ & _ & _ & E7).
    exists o. split; [exact E|]. split; [exact (eq_trans E4 Hx)|]. split; [exact E7|exact E3].
  - intros x y t Hx Hy Hbx Hby Ht. unfold l1_ball in *.
    assert (G : forall (x y : list R), length x = length y -> l1 (lin (1 - t) x t y) <= (1 - t) * l1 x + t * l1 y).
    { clear x y Hx Hy Hbx Hby. induction x as [|p x IH]; destruct y as [|q y]; intros Hl; try discriminate Hl.
      - unfold l1, lin. cbn. lra.
      - injection Hl as Hl. specialize (IH y Hl). unfold l1, lin in *. cbn [map2 map Rsum].
        pose proof (Rabs_triang ((1 - t) * p) (t * q)) as T. rewrite !Rabs_mult, (Rabs_right (1 - t)), (Rabs_right t) in T by lra.
        lra. }
    eapply Rle_trans; [apply G; congruence|]. 
    assert ((1 - t) * l1 x <= (1 - t) * alpha) by (apply Rmult_le_compat_l; lra).
    assert (t * l1 y <= t * alpha) by (apply Rmult_le_compat_l; lra). lra.
Qed.
