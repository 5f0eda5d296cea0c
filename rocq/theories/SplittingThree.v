(** * Main theorems about minimize_three_split (statements re-exported in PropsSplitting.v) *)
From Coq Require Import ZArith QArith Reals List Bool Lra Lia Psatz.
From Verif Require Import Num Vec Spec RVec ConvexFacts ModelUtils ModelSplitting SplittingFacts ProxGradFacts ProxGradMain SplittingMain.
Import ListNotations.
Open Scope R_scope.

(** the run, unpacked *)
Lemma ts_unpack n (f : vec RN -> RN) (gradf : vec RN -> vec RN) domg domh g h
  (p1 p2 : option (vec RN -> RN -> vec RN)) (x0 : vec RN) (tol : RN) max_iter cb ls (st : option RN) max_bt (factor : RN) (hL : option RN)
  (r : ts_result RN) :
  convex_on n domg g -> convex_on n domh h ->
  (forall x s, length x = n -> 0 < s -> is_prox_on domg g s x (match p1 with Some p => p x s | None => x end)) ->
  (forall x s, length x = n -> 0 < s -> is_prox_on domh h s x (match p2 with Some p => p x s | None => x end)) ->
  (forall x, length x = n -> length (gradf x) = n) -> length x0 = n ->
  match st with Some s => 0 < s | None => True end -> 0 < factor <= 1 ->
  (hL = None \/ hL = Some 0 \/ forall i, In i (tr_iters r) -> 0 < ti_in i) ->
  minimize_three_split (fun x => (f x, gradf x)) x0 p1 p2 tol max_iter cb ls st max_bt factor hL = Ok r ->
  let q1 x s := match p1 with Some p => p x s | None => x end in
  let q2 x s := match p2 with Some p => p x s | None => x end in
  let s0 := match st with Some s => s | None => 1 / init_lipschitz (fun x => (f x, gradf x)) x0 end in
  0 < s0 /\
  exists i older, tr_iters r = i :: older /\ tr_x r = ti_x i /\ tr_cert r = ti_cert i /\ tr_stepsize r = ti_out i /\
    tr_nit r = length older /\ (tr_nit r < max_iter)%nat /\
    Forall (ts_facts n gradf domg domh g h q1 q2) (i :: older) /\
    (tr_success r = true -> (0 < tr_nit r)%nat /\ ti_cert i < tol) /\
    (forall newer j old, i :: older = newer ++ j :: old ->
       (ti_z j, ti_u j, ti_in j) = ts_prev (q2 x0 s0) (zeros n) s0 old /\ 0 < ti_in j /\ (hL = None -> ti_out j = ti_step j)) /\
    ts_chain (fun x => (f x, gradf x)) q1 q2 (match st with Some _ => ls | None => true end) max_bt factor hL
       (q2 x0 s0) (zeros n) s0 (tr_iters r).
Proof.
  intros Hg Hh Hp1 Hp2 Hgl Lx Hst Hf Hsafe H q1 q2 s0.
  assert (Hs0 : 0 < s0).
  { unfold s0. destruct st; auto. pose proof (main_C32_init_lipschitz_pos (fun x => (f x, gradf x)) x0) as P.
    apply Rdiv_lt_0_compat; [lra|exact P]. }
  split; [exact Hs0|].
  destruct (ts_solver_good _ _ _ _ _ _ _ _ _ _ _ _ _ H) as [_ G].
  assert (Eq1 : match p1 with Some p => p | None => fun x _ => x end = q1) by (unfold q1; destruct p1; reflexivity).
  assert (Eq2 : match p2 with Some p => p | None => fun x _ => x end = q2) by (unfold q2; destruct p2; reflexivity).
  assert (Es : match st with Some s => s | None => ndiv RN n1 (init_lipschitz (fun x => (f x, gradf x)) x0) end = s0)
    by (unfold s0; destruct st; reflexivity).
  cbv zeta in G. rewrite Eq1, Eq2, Es in G.
  assert (L0 : length (q2 x0 s0) = n). { destruct (Hp2 x0 s0 Lx Hs0) as [L _]. eapply eq_trans; [exact L|exact Lx]. }
  assert (L1 : length (q1 (vsub (q2 x0 s0) (vscale s0 (gradf (q2 x0 s0)))) s0) = n).
  { rewrite vsub_R, vscale_R. specialize (Hgl _ L0).
    destruct (Hp1 (vminus (q2 x0 s0) (smul s0 (gradf (q2 x0 s0)))) s0) as [L _]; [lengr|exact Hs0|].
    eapply eq_trans; [exact L|lengr]. }
  cbn [snd] in G. rewrite L1 in G. rewrite vzeros_R in G.
  destruct G as [(i & older & Ei & Ex & Ec & Est & En & Hq & Hex) Hch Hlog Hn].
  destruct (ts_chain_facts n f gradf domg domh g h q1 q2 _ max_bt factor hL Hg Hh Hp1 Hp2 Hgl Hf _ _ _ _ Hch L0 (zeros_length n) Hs0)
    as (HF & _ & HS).
  { exact Hsafe. }
  exists i, older. rewrite Ei in HF, HS. repeat (split; [assumption|]).
  split.
  { intros E. destruct (tr_exit r); destruct Hex as [Es' Hex]; rewrite Es' in E; try discriminate.
    destruct Hex as (A & B & _). split; [exact A|]. apply Rltb_iff. exact B. }
  split; [exact HS|exact Hch].
Qed.

Lemma resid_eq n (z u x gz : list R) (s : R) : length z = n -> length u = n -> length x = n -> length gz = n ->
  vplus (vplus gz u) (vminus (smul (/ s) (vminus z x)) (vplus u gz)) = smul (/ s) (vminus z x).
Proof.
  intros. apply list_ext with (d := 0); [lengr|]. intros k _.
  repeat (first [rewrite nth_smul | rewrite nth_vminus by lengr | rewrite nth_vplus by lengr]). ring.
Qed.
Lemma norm2_sym (u v : list R) : length u = length v -> norm2 (vminus u v) = norm2 (vminus v u).
Proof.
  intros L. unfold norm2. f_equal. rewrite <- !dist2_dot by auto. apply dist2_sym.
Qed.
Lemma norm_resid (z x : list R) (s t : R) : length z = length x -> 0 < t -> t <= s ->
  norm2 (smul (/ s) (vminus z x)) <= norm2 (vminus x z) / t.
Proof.
  intros L Ht Hs. rewrite norm2_smul, (norm2_sym x z) by auto. rewrite Rabs_pos_eq by (left; apply Rinv_0_lt_compat; lra).
  unfold Rdiv. rewrite Rmult_comm. apply Rmult_le_compat_l; [apply norm2_nonneg|]. apply Rinv_le_contravar; lra.
Qed.

(** what a run says about its last iteration *)
Lemma ts_last n (f : vec RN -> RN) (gradf : vec RN -> vec RN) domg domh g h
  (p1 p2 : option (vec RN -> RN -> vec RN)) (x0 : vec RN) (tol : RN) max_iter cb ls (st : option RN) max_bt (factor : RN) (hL : option RN)
  (r : ts_result RN) :
  convex_on n domg g -> convex_on n domh h ->
  (forall x s, length x = n -> 0 < s -> is_prox_on domg g s x (match p1 with Some p => p x s | None => x end)) ->
  (forall x s, length x = n -> 0 < s -> is_prox_on domh h s x (match p2 with Some p => p x s | None => x end)) ->
  (forall x, length x = n -> length (gradf x) = n) -> length x0 = n ->
  match st with Some s => 0 < s | None => True end -> 0 < factor <= 1 ->
  (hL = None \/ hL = Some 0 \/ forall i, In i (tr_iters r) -> 0 < ti_in i) ->
  minimize_three_split (fun x => (f x, gradf x)) x0 p1 p2 tol max_iter cb ls st max_bt factor hL = Ok r ->
  (0 < tr_nit r)%nat ->
  exists z u v s, length z = n /\ length (tr_x r) = n /\
    subgrad n domh h z u /\ subgrad n domg g (tr_x r) v /\
    norm2 (vplus (vplus (gradf z) u) v) <= tr_cert r /\ norm2 (vminus (tr_x r) z) = tr_cert r * s /\
    0 < s /\ (hL = None -> tr_stepsize r = s) /\
    exists p, p >= s /\ vplus (vplus (gradf z) u) v = smul (/ p) (vminus z (tr_x r)).
Proof.
  intros Hg Hh Hp1 Hp2 Hgl Lx Hst Hf Hsafe H Hnit.
  destruct (ts_unpack n f gradf domg domh g h p1 p2 x0 tol max_iter cb ls st max_bt factor hL r Hg Hh Hp1 Hp2 Hgl Lx Hst Hf Hsafe H)
    as (Hs0 & i & older & Ei & Ex & Ec & Est & En & Hnn & HF & _ & HS & _).
  pose proof (Forall_inv HF) as F. pose proof (Forall_inv_tail HF) as HFo.
  destruct older as [|j old]; [cbn in En; lia|].
  pose proof (Forall_inv HFo) as Fj.
  destruct (HS [] i (j :: old) eq_refl) as (Hprev & _ & Hout). cbn [ts_prev] in Hprev.
  injection Hprev as Ez Eu _.
  pose proof (tf_sz _ _ _ _ _ _ _ _ _ Fj) as Sz. rewrite <- Ez, <- Eu in Sz.
  pose proof (tf_sx _ _ _ _ _ _ _ _ _ F) as Sx.
  pose proof (tf_lz _ _ _ _ _ _ _ _ _ F) as Lz. pose proof (tf_lu _ _ _ _ _ _ _ _ _ F) as Lu.
  pose proof (tf_lx _ _ _ _ _ _ _ _ _ F) as Lxi.
  pose proof (tf_step_pos _ _ _ _ _ _ _ _ _ F) as Hsp. pose proof (tf_step_le _ _ _ _ _ _ _ _ _ F) as Hsl.
  pose proof (tf_cert _ _ _ _ _ _ _ _ _ F) as Hce. pose proof (Hgl _ Lz) as Lgz.
  exists (ti_z i), (ti_u i). eexists. exists (ti_step i). rewrite Ex.
  split; [exact Lz|]. split; [exact Lxi|]. split; [exact Sz|]. split; [exact Sx|].
  assert (Er : vplus (vplus (gradf (ti_z i)) (ti_u i)) (vminus (smul (/ ti_prox i) (vminus (ti_z i) (ti_x i))) (vplus (ti_u i) (gradf (ti_z i))))
     = smul (/ ti_prox i) (vminus (ti_z i) (ti_x i))) by (apply (resid_eq n); auto).
  rewrite Er. split.
  { rewrite Ec, Hce. apply norm_resid; auto. eapply eq_trans; [exact Lz|symmetry; exact Lxi]. }
  split. { rewrite Ec, Hce. unfold Rdiv. rewrite Rmult_assoc, Rinv_l by lra. ring. }
  split; [exact Hsp|]. split. { intros E. rewrite Est. auto. }
  exists (ti_prox i). split; [lra|reflexivity].
Qed.

Lemma main_C50_success : forall n (f : vec RN -> RN) (gradf : vec RN -> vec RN) domg domh g h
  (p1 p2 : option (vec RN -> RN -> vec RN)) (x0 : vec RN) (tol : RN) max_iter cb ls (st : option RN) max_bt (factor : RN) (hL : option RN)
  (r : ts_result RN),
  convex_on n domg g -> convex_on n domh h ->
  (forall x s, length x = n -> 0 < s -> is_prox_on domg g s x (match p1 with Some p => p x s | None => x end)) ->
  (forall x s, length x = n -> 0 < s -> is_prox_on domh h s x (match p2 with Some p => p x s | None => x end)) ->
  (forall x, length x = n -> length (gradf x) = n) -> length x0 = n ->
  match st with Some s => 0 < s | None => True end -> 0 < factor <= 1 ->
  (hL = None \/ hL = Some 0 \/ forall i, In i (tr_iters r) -> 0 < ti_in i) ->
  minimize_three_split (fun x => (f x, gradf x)) x0 p1 p2 tol max_iter cb ls st max_bt factor hL = Ok r ->
  tr_success r = true ->
  exists z u v s, length z = n /\ length (tr_x r) = n /\
    subgrad n domh h z u /\ subgrad n domg g (tr_x r) v /\
    norm2 (vplus (vplus (gradf z) u) v) < tol /\ norm2 (vminus (tr_x r) z) < tol * s /\
    0 < s /\ (hL = None -> tr_stepsize r = s).
Proof.
  intros n f gradf domg domh g h p1 p2 x0 tol max_iter cb ls st max_bt factor hL r Hg Hh Hp1 Hp2 Hgl Lx Hst Hf Hsafe H Hsu.
  destruct (ts_unpack n f gradf domg domh g h p1 p2 x0 tol max_iter cb ls st max_bt factor hL r Hg Hh Hp1 Hp2 Hgl Lx Hst Hf Hsafe H)
    as (Hs0 & i & older & Ei & Ex & Ec & Est & En & Hnn & HF & Hs & HS & _).
  destruct (Hs Hsu) as [Hpos Hct]. clear Hs.
  destruct (ts_last n f gradf domg domh g h p1 p2 x0 tol max_iter cb ls st max_bt factor hL r Hg Hh Hp1 Hp2 Hgl Lx Hst Hf Hsafe H Hpos)
    as (z & u & v & s & Lz & Lxr & Sz & Sx & N1 & N2 & Hsp & Hout & _).
  rewrite <- Ec in Hct.
  exists z, u, v, s. repeat (split; [assumption|]). split; [lra|]. split; [|auto].
  rewrite N2. apply Rmult_lt_compat_r; auto.
Qed.

(** optimality gap from three subgradients *)
Lemma three_gap n (f : list R -> R) (gradf : list R -> list R) domg domh g h (x z u v y : list R) :
  first_order n f gradf -> length (gradf z) = n -> length x = n -> length z = n -> length y = n ->
  subgrad n domh h z u -> subgrad n domg g x v -> domg y -> domh y ->
  f z + g x + h z - (f y + g y + h y) <=
    norm2 (vplus (vplus (gradf z) u) v) * norm2 (vminus y x) + norm2 (vplus (gradf z) u) * norm2 (vminus x z).
Proof.
  intros Hfo Lg Lx Lz Ly (Lu & _ & Su) (Lv & _ & Sv) Dg Dh.
  pose proof (Hfo z y Lz Ly) as A. pose proof (Su y Ly Dh) as B. pose proof (Sv y Ly Dg) as C.
  pose proof (dot_ge_norm (vplus (vplus (gradf z) u) v) (vminus y x)) as D.
  pose proof (dot_ge_norm (vplus (gradf z) u) (vminus x z)) as E.
  assert (Eq : dot (gradf z) (vminus y z) + dot u (vminus y z) + dot v (vminus y x)
     = dot (vplus (vplus (gradf z) u) v) (vminus y x) + dot (vplus (gradf z) u) (vminus x z)).
  { ipx. ring. }
  rn. lra.
Qed.

Lemma main_C50_gap : forall n (f : vec RN -> RN) (gradf : vec RN -> vec RN) domg domh g h
  (p1 p2 : option (vec RN -> RN -> vec RN)) (x0 : vec RN) (tol : RN) max_iter cb ls (st : option RN) max_bt (factor : RN) (hL : option RN)
  (r : ts_result RN),
  convex_on n domg g -> convex_on n domh h -> first_order n f gradf ->
  (forall x s, length x = n -> 0 < s -> is_prox_on domg g s x (match p1 with Some p => p x s | None => x end)) ->
  (forall x s, length x = n -> 0 < s -> is_prox_on domh h s x (match p2 with Some p => p x s | None => x end)) ->
  (forall x, length x = n -> length (gradf x) = n) -> length x0 = n ->
  match st with Some s => 0 < s | None => True end -> 0 < factor <= 1 ->
  (hL = None \/ hL = Some 0 \/ forall i, In i (tr_iters r) -> 0 < ti_in i) ->
  minimize_three_split (fun x => (f x, gradf x)) x0 p1 p2 tol max_iter cb ls st max_bt factor hL = Ok r ->
  tr_success r = true ->
  exists z u s, length z = n /\ subgrad n domh h z u /\ domg (tr_x r) /\ 0 < s /\ (hL = None -> tr_stepsize r = s) /\
    norm2 (vminus (tr_x r) z) < tol * s /\
    forall y, length y = n -> domg y -> domh y ->
      f z + g (tr_x r) + h z - (f y + g y + h y)
        <= tol * norm2 (vminus y (tr_x r)) + norm2 (vplus (gradf z) u) * (tol * s).
Proof.
  intros n f gradf domg domh g h p1 p2 x0 tol max_iter cb ls st max_bt factor hL r Hg Hh Hfo Hp1 Hp2 Hgl Lx Hst Hf Hsafe H Hsu.
  destruct (main_C50_success n f gradf domg domh g h p1 p2 x0 tol max_iter cb ls st max_bt factor hL r Hg Hh Hp1 Hp2 Hgl Lx Hst Hf Hsafe H Hsu)
    as (z & u & v & s & Lz & Lxr & Sz & Sx & N1 & N2 & Hsp & Hout).
  exists z, u, s. split; [exact Lz|]. split; [exact Sz|]. split; [apply Sx|]. split; [exact Hsp|]. split; [exact Hout|].
  split; [exact N2|]. intros y Ly Dg Dh.
  pose proof (three_gap n f gradf domg domh g h (tr_x r) z u v y Hfo (Hgl _ Lz) Lxr Lz Ly Sz Sx Dg Dh) as G.
  pose proof (norm2_nonneg (vminus y (tr_x r))). pose proof (norm2_nonneg (vplus (gradf z) u)).
  assert (norm2 (vplus (vplus (gradf z) u) v) * norm2 (vminus y (tr_x r)) <= tol * norm2 (vminus y (tr_x r)))
    by (apply Rmult_le_compat_r; lra).
  assert (norm2 (vplus (gradf z) u) * norm2 (vminus (tr_x r) z) <= norm2 (vplus (gradf z) u) * (tol * s))
    by (apply Rmult_le_compat_l; lra).
  lra.
Qed.

Lemma main_C50_zero_certificate : forall n (f : vec RN -> RN) (gradf : vec RN -> vec RN) domg domh g h
  (p1 p2 : option (vec RN -> RN -> vec RN)) (x0 : vec RN) (tol : RN) max_iter cb ls (st : option RN) max_bt (factor : RN) (hL : option RN)
  (r : ts_result RN),
  convex_on n domg g -> convex_on n domh h -> first_order n f gradf ->
  (forall x s, length x = n -> 0 < s -> is_prox_on domg g s x (match p1 with Some p => p x s | None => x end)) ->
  (forall x s, length x = n -> 0 < s -> is_prox_on domh h s x (match p2 with Some p => p x s | None => x end)) ->
  (forall x, length x = n -> length (gradf x) = n) -> length x0 = n ->
  match st with Some s => 0 < s | None => True end -> 0 < factor <= 1 ->
  (hL = None \/ hL = Some 0 \/ forall i, In i (tr_iters r) -> 0 < ti_in i) ->
  minimize_three_split (fun x => (f x, gradf x)) x0 p1 p2 tol max_iter cb ls st max_bt factor hL = Ok r ->
  (0 < tr_nit r)%nat -> tr_cert r = 0 ->
  is_min n (fun y => domg y /\ domh y) (fun y => f y + g y + h y) (tr_x r).
Proof.
  intros n f gradf domg domh g h p1 p2 x0 tol max_iter cb ls st max_bt factor hL r Hg Hh Hfo Hp1 Hp2 Hgl Lx Hst Hf Hsafe H Hpos Hc.
  destruct (ts_last n f gradf domg domh g h p1 p2 x0 tol max_iter cb ls st max_bt factor hL r Hg Hh Hp1 Hp2 Hgl Lx Hst Hf Hsafe H Hpos)
    as (z & u & v & s & Lz & Lxr & Sz & Sx & N1 & N2 & Hsp & Hout & _).
  rewrite Hc in N1, N2. rewrite Rmult_0_l in N2.
  pose proof (norm2_nonneg (vplus (vplus (gradf z) u) v)) as N0.
  assert (E : tr_x r = z).
  { assert (LL : length (tr_x r) = length z) by (eapply eq_trans; [exact Lxr|symmetry; exact Lz]).
    apply dist2_zero; [exact LL|]. rewrite dist2_dot by exact LL. apply norm2_zero_dot in N2. lra. }
  rewrite <- E in *. split; [exact Lxr|]. split; [split; [apply Sx|apply Sz]|].
  intros y Ly [Dg Dh].
  pose proof (three_gap n f gradf domg domh g h (tr_x r) (tr_x r) u v y Hfo (Hgl _ Lxr) Lxr Lxr Ly Sz Sx Dg Dh) as G.
  rewrite N2 in G. replace (norm2 (vplus (vplus (gradf (tr_x r)) u) v)) with 0 in G by lra. rn. lra.
Qed.
