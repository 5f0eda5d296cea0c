(** * The randomized solvers: closed statements (C55-C61, C69, fixed points) *)
From Coq Require Import ZArith Bool List Lia Permutation Reals Lra.
From Verif Require Import Num Vec Spec SpecSparse RVec ConvexFacts ModelPenalty PenaltyFacts PenaltyFacts2 PenaltyFacts3 UtilsMain ProxGradMain SplittingRuns ModelRandomized SpecFiniteSum RandomizedFacts RandomizedBlocks RandomizedSaga RandomizedSvrg RandomizedVrtos RandomizedFix RandomizedProx RandomizedPen.
Import ListNotations.
Local Open Scope nat_scope.

(** ** the support matrix and the weights *)
Lemma main_C55_support_rows : forall (n d nb : nat) (indices indptr rb : list nat),
  csr_wf n d indices indptr -> d <= length rb -> (forall c, c < d -> nth c rb 0 < nb) ->
  exists bsi bsp, support_matrix indices indptr rb nb = Ok (bsi, bsp) /\
    length bsp = S n /\ nth 0 bsp 0 = 0 /\ nth n bsp 0 = length bsi /\ (forall i, i < n -> nth i bsp 0 <= nth (S i) bsp 0) /\
    (forall i, i < n -> csr_row bsi bsp i = firsts (map (fun c => nth c rb 0) (csr_row indices indptr i))) /\
    (forall i, i < n -> NoDup (csr_row bsi bsp i)) /\
    (forall i h, i < n -> (In h (csr_row bsi bsp i) <-> exists c, In c (csr_row indices indptr i) /\ nth c rb 0 = h)).
Proof.
  intros n d nb indices indptr rb W L Hb. destruct (support_matrix_spec n d nb indices indptr rb W L Hb) as (bsp & E & Lb & Hp & Hr).
  exists (rowsb indices indptr rb n), bsp. split; [exact E|]. split; [exact Lb|].
  split; [rewrite Hp by lia; reflexivity|]. split; [apply Hp; lia|].
  split; [intros i Hi; rewrite !Hp by lia; rewrite rowsb_S, app_length; lia|]. split; [exact Hr|].
  split; [intros i Hi; rewrite (Hr i Hi); apply firsts_NoDup|]. intros i h Hi. rewrite (Hr i Hi). unfold rowb. rewrite in_firsts, in_map_iff.
  split; intros (c & A1 & A2); exists c; auto.
Qed.
(** the block map used by the solvers: feature c is in block [rblocks c] *)
Lemma main_C55_block_map : forall (ptr : list nat) (d : nat), partitions ptr d ->
  length (rblocks ptr) = d /\
  forall c h, c < d -> (nth c (rblocks ptr) 0 = h <-> S h < length ptr /\ In c (blk ptr h)).
Proof.
  intros ptr d Hq. split; [apply rblocks_length, Hq|]. intros c h Hc. split.
  - intros <-. apply (rblocks_spec ptr d c Hq Hc).
  - intros (A1 & A2). eapply rblocks_in; eauto.
Qed.
(** the blocks built by the solvers: row i lists the blocks with a feature of sample i; failure exactly
    when A has no stored entry *)
Lemma main_C55_make_blocks : forall (K : Num) (P : problem K) (ptr : list nat), problem_wf P -> partitions ptr (p_d P) ->
  ((forall i, i < p_n P -> csr_row (p_indices P) (p_indptr P) i = []) -> make_blocks P ptr = Err ValueError) /\
  ((exists i, i < p_n P /\ csr_row (p_indices P) (p_indptr P) i <> []) ->
   exists B, make_blocks P ptr = Ok B /\ k_ptr B = ptr /\
     forall i h, i < p_n P -> (In h (csr_row (k_bsi B) (k_bsp B) i) <->
       S h < length ptr /\ exists c, In c (csr_row (p_indices P) (p_indptr P) i) /\ In c (blk ptr h))).
Proof.
  intros K P ptr HP Hq. split; [apply make_blocks_empty; assumption|]. intros (i0 & Hi0 & Hne).
  destruct (make_blocks_ok P HP ptr Hq i0 Hi0 Hne) as (B & EB). exists B. split; [exact EB|].
  destruct (make_blocks_spec P HP ptr Hq B EB) as (E1 & _ & _ & E4 & _). split; [exact E1|].
  intros i h Hi. destruct (E4 i Hi) as (_ & ->). apply (pblocks_in P HP ptr Hq i h Hi).
Qed.
Lemma filter_blocks {K : Num} (P : problem K) (ptr : list nat) B h : problem_wf P -> partitions ptr (p_d P) -> make_blocks P ptr = Ok B ->
  touching P ptr h = filter (fun i => if in_dec Nat.eq_dec h (csr_row (k_bsi B) (k_bsp B) i) then true else false) (seq 0 (p_n P)).
Proof.
  intros HP Hq EB. destruct (make_blocks_spec P HP ptr Hq B EB) as (_ & _ & _ & E4 & _). unfold touching. apply filter_ext_in. intros i Hi. apply in_seq in Hi.
  destruct (E4 i ltac:(lia)) as (_ & ->). reflexivity.
Qed.
Lemma main_C56_weights : forall (K : Num) (P : problem K) (ptr : list nat) (B : blocks K) (h : nat),
  problem_wf P -> partitions ptr (p_d P) -> make_blocks P ptr = Ok B ->
  let users := filter (fun i => if in_dec Nat.eq_dec h (csr_row (k_bsi B) (k_bsp B) i) then true else false) (seq 0 (p_n P)) in
  (users <> [] -> h < length (k_d B) /\ nth h (k_d B) n0 = ndiv K (nofnat (p_n P)) (nofnat (length users))) /\
  (users = [] -> h < length (k_d B) -> nth h (k_d B) n0 = n1).
Proof.
  intros K P ptr B h HP Hq EB users. unfold users. rewrite <- (filter_blocks P ptr B h HP Hq EB). clear users.
  destruct (make_blocks_spec P HP ptr Hq B EB) as (_ & E2 & _ & _ & E5). rewrite E2 in E5. destruct (weights_spec P ptr (k_d B) E5) as (W0 & W1 & W2). split.
  - intros Hne. assert (Hl : 0 < length (touching P ptr h)) by (destruct (touching P ptr h); [congruence|cbn; lia]).
    assert (Hh : h < length (k_d B)).
    { destruct (touching P ptr h) as [|i l] eqn:E; [congruence|]. assert (Hin : In i (touching P ptr h)) by (rewrite E; left; reflexivity).
      unfold touching in Hin. apply filter_In in Hin as (Hi & Hd). apply in_seq in Hi. destruct (in_dec Nat.eq_dec h (pblocks P ptr i)); [|discriminate]. eapply W0; [|eassumption]. lia. }
    split; [exact Hh|]. apply W1; assumption.
  - intros He Hh. apply W2; [exact Hh|]. rewrite He. reflexivity.
Qed.
Lemma main_C56_weights_mean : forall (P : problem RN) (ptr : list nat) (B : blocks RN) (h : nat),
  problem_wf P -> partitions ptr (p_d P) -> make_blocks P ptr = Ok B ->
  (exists i, i < p_n P /\ In h (csr_row (k_bsi B) (k_bsp B) i)) ->
  (/ INR (p_n P) * Rsum (map (fun i => if in_dec Nat.eq_dec h (csr_row (k_bsi B) (k_bsp B) i) then nth h (k_d B) 0 else 0) (seq 0 (p_n P))) = 1)%R.
Proof.
  intros P ptr B h HP Hq EB (i0 & Hi0 & Hin). destruct (make_blocks_spec P HP ptr Hq B EB) as (_ & _ & _ & E4 & _).
  destruct (E4 i0 Hi0) as (_ & Er). rewrite Er in Hin.
  rewrite (Rsum_map_ext (fun i => if in_dec Nat.eq_dec h (csr_row (k_bsi B) (k_bsp B) i) then nth h (k_d B) 0%R else 0%R) (fun i => if in_dec Nat.eq_dec h (pblocks P ptr i) then nth h (k_d B) 0%R else 0%R)).
  2:{ intros i Hi. apply in_seq in Hi. destruct (E4 i ltac:(lia)) as (_ & ->). reflexivity. }
  eapply eq_trans; [apply f_equal, (weights_sum P HP ptr Hq B EB h)|].
  - eapply touching_pos; eauto.
  - eapply bw_in; eauto.
  - field. apply not_0_INR. lia.
Qed.

(** ** the trace of a run: a generic epoch loop *)
Section Loop.
Context {K : Num} {St : Type}.
Variables (ep : nat -> St -> result St) (xof : St -> vec K) (tol : K).
Fixpoint gen_loop (k it : nat) (s : St) (log : list St) : result (epoch_result K St) :=
  match k with
  | O => Err UnboundLocalError
  | S k' =>
      s' <- ep it s ;;
      if nltb K (vnorm1 (vsub (xof s') (xof s))) tol then Ok (mkER (xof s') true it (s' :: log))
      else match k' with O => Ok (mkER (xof s') false it (s' :: log)) | S _ => gen_loop k' (S it) s' (s' :: log) end
  end.
Variable s0 : St.
Fixpoint run_state (k : nat) : St := match k with O => s0 | S k' => match ep k' (run_state k') with Ok s => s | Err _ => run_state k' end end.
Definition trace (S0 : nat -> St) (max_iter : nat) (r : epoch_result K St) : Prop :=
  (forall k, k <= er_nit r -> ep k (S0 k) = Ok (S0 (S k))) /\
  er_nit r < max_iter /\ er_x r = xof (S0 (S (er_nit r))) /\ er_log r = rev (map S0 (seq 0 (S (S (er_nit r))))) /\
  (forall k, k < er_nit r -> nltb K (vnorm1 (vsub (xof (S0 (S k))) (xof (S0 k)))) tol = false) /\
  er_success r = nltb K (vnorm1 (vsub (xof (S0 (S (er_nit r)))) (xof (S0 (er_nit r))))) tol /\
  (er_success r = false -> S (er_nit r) = max_iter).
Lemma gen_loop_trace k : forall it log r, log = rev (map run_state (seq 0 (S it))) ->
  (forall j, j < it -> ep j (run_state j) = Ok (run_state (S j))) ->
  (forall j, j < it -> nltb K (vnorm1 (vsub (xof (run_state (S j))) (xof (run_state j)))) tol = false) ->
  gen_loop k it (run_state it) log = Ok r -> trace run_state (it + k) r.
Proof.
  induction k as [|k IH]; intros it log r Hlog Hep Hd E; cbn [gen_loop] in E; [discriminate|].
  apply bind_ok in E as (s' & Es & E). assert (Es' : run_state (S it) = s') by (cbn [run_state]; rewrite Es; reflexivity).
  assert (Hlog' : s' :: log = rev (map run_state (seq 0 (S (S it))))).
  { rewrite (seq_S (S it) 0), map_app, rev_app_distr, <- Hlog. cbn [Nat.add map rev app]. rewrite Es'. reflexivity. }
  assert (Hep' : forall j, j < S it -> ep j (run_state j) = Ok (run_state (S j))).
  { intros j Hj. destruct (Nat.eq_dec j it) as [->|N]; [rewrite Es'; exact Es|apply Hep; lia]. }
  destruct (nltb K (vnorm1 (vsub (xof s') (xof (run_state it)))) tol) eqn:Et.
  - injection E as <-. unfold trace; cbn [er_nit er_x er_log er_success]. rewrite Es'. split; [intros j Hj; apply Hep'; lia|]. split; [lia|].
    split; [reflexivity|]. split; [exact Hlog'|]. split; [exact Hd|]. split; [auto|discriminate].
  - assert (Hd' : forall j, j < S it -> nltb K (vnorm1 (vsub (xof (run_state (S j))) (xof (run_state j)))) tol = false).
    { intros j Hj. destruct (Nat.eq_dec j it) as [->|N]; [rewrite Es'; exact Et|apply Hd; lia]. }
    destruct k as [|k].
    + injection E as <-. unfold trace; cbn [er_nit er_x er_log er_success]. rewrite Es'. split; [intros j Hj; apply Hep'; lia|]. split; [lia|].
      split; [reflexivity|]. split; [exact Hlog'|]. split; [exact Hd|]. split; [auto|intros; lia].
    + rewrite <- Es' in E. replace (it + S (S k)) with (S it + S k) by lia. apply (IH (S it) (run_state (S it) :: log) r); [rewrite Es'; exact Hlog'|exact Hep'|exact Hd'|exact E].
Qed.
Lemma gen_loop_total k it s log : (forall j t, exists t', ep j t = Ok t') -> 0 < k -> exists r, gen_loop k it s log = Ok r.
Proof.
  intros H. revert it s log. induction k as [|k IH]; intros it s log Hk; [lia|]. cbn [gen_loop]. destruct (H it s) as (s' & ->). cbn [bind].
  destruct (nltb K _ tol); [eauto|]. destruct k; [eauto|]. apply IH. lia.
Qed.
(** totality for states satisfying an invariant kept by the epochs *)
Lemma gen_loop_total_inv (I : St -> Prop) k : (forall j t, I t -> exists t', ep j t = Ok t' /\ I t') -> 0 < k -> forall it s log, I s -> exists r, gen_loop k it s log = Ok r.
Proof.
  intros H. induction k as [|k IH]; intros Hk it s log Is; [lia|]. cbn [gen_loop]. destruct (H it s Is) as (s' & -> & Is'). cbn [bind].
  destruct (nltb K _ tol); [eauto|]. destruct k; [eauto|]. apply IH; [lia|exact Is'].
Qed.
End Loop.
Lemma saga_loop_gen {K : Num} (P : problem K) B prox step tol perms k : forall it s log,
  saga_loop P B prox step tol perms k it s log = gen_loop (fun it s => saga_epoch P B prox step (perms it) s) (@sa_x K) tol k it s log.
Proof.
  induction k as [|k IH]; intros it s log; [reflexivity|]. cbn [saga_loop gen_loop]. destruct (saga_epoch P B prox step (perms it) s); cbn [bind]; [|reflexivity].
  destruct (nltb K _ tol); [reflexivity|]. destruct k; [reflexivity|apply IH].
Qed.
Definition svrg_ep {K : Num} (P : problem K) B prox step (perms : nat -> list nat) (it : nat) (s : vec K * vec K) : result (vec K * vec K) :=
  gavg <- full_grad P (fst s) ;; svrg_epoch P B prox step (fst s) gavg (perms it) s.
Lemma svrg_loop_gen {K : Num} (P : problem K) B prox step tol perms k : forall it x tmp log,
  svrg_loop P B prox step tol perms k it x tmp log = gen_loop (svrg_ep P B prox step perms) fst tol k it (x, tmp) log.
Proof.
  induction k as [|k IH]; intros it x tmp log; [reflexivity|]. cbn [svrg_loop gen_loop]. unfold svrg_ep at 1. cbn [fst].
  destruct (full_grad P x) as [g|]; cbn [bind]; [|reflexivity]. destruct (svrg_epoch P B prox step x g (perms it) (x, tmp)) as [[x' tmp']|]; cbn [bind fst]; [|reflexivity].
  destruct (nltb K _ tol); [reflexivity|]. destruct k; [reflexivity|apply IH].
Qed.

(** ** C69: what a run of SAGA / SVRG returns *)
Lemma main_C69_saga_contract : forall (K : Num) (P : problem K) (x0 : vec K) (step : option K) (prox : option (sprox K)) (ptr : option (list nat))
  (max_iter : nat) (tol : K) (perms : nat -> list nat) (r : epoch_result K (saga_state K)),
  minimize_saga P x0 step prox ptr max_iter tol perms = Ok r ->
  exists (st : K) (B : blocks K) (states : nat -> saga_state K),
    step = Some st /\ make_blocks P (match ptr with Some q => q | None => eye_ptr (p_d P) end) = Ok B /\
    states 0 = mkSaga x0 (vzeros (p_n P)) (vzeros (p_d P)) (vzeros (p_d P)) /\
    (forall k, k <= er_nit r -> saga_epoch P B (match prox with Some q => q | None => no_prox end) st (perms k) (states k) = Ok (states (S k))) /\
    er_nit r < max_iter /\ er_x r = sa_x (states (S (er_nit r))) /\
    er_log r = rev (map states (seq 0 (S (S (er_nit r))))) /\
    (forall k, k < er_nit r -> nltb K (vnorm1 (vsub (sa_x (states (S k))) (sa_x (states k)))) tol = false) /\
    er_success r = nltb K (vnorm1 (vsub (sa_x (states (S (er_nit r)))) (sa_x (states (er_nit r))))) tol /\
    (er_success r = false -> S (er_nit r) = max_iter).
Proof.
  intros K P x0 step prox ptr max_iter tol perms r E. unfold minimize_saga in E. destruct step as [st|]; [|discriminate].
  apply bind_ok in E as (B & EB & E). rewrite saga_loop_gen in E. set (px := match prox with Some q => q | None => no_prox end) in *.
  set (ep := fun it s => saga_epoch P B px st (perms it) s) in *. exists st, B, (run_state ep (saga_init P x0)).
  split; [reflexivity|]. split; [exact EB|]. split; [reflexivity|].
  pose proof (gen_loop_trace ep (@sa_x K) tol (saga_init P x0) max_iter 0 [saga_init P x0] r eq_refl ltac:(intros; lia) ltac:(intros; lia) E) as T. exact T.
Qed.
Lemma main_C69_svrg_contract : forall (K : Num) (P : problem K) (x0 : vec K) (step : option K) (prox : option (sprox K)) (ptr : option (list nat))
  (max_iter : nat) (tol : K) (perms : nat -> list nat) (r : epoch_result K (vec K * vec K)),
  minimize_svrg P x0 step prox ptr max_iter tol perms = Ok r ->
  exists (st : K) (B : blocks K) (states : nat -> vec K * vec K),
    step = Some st /\ make_blocks P (match ptr with Some q => q | None => eye_ptr (p_d P) end) = Ok B /\
    states 0 = (x0, vzeros (p_d P)) /\
    (forall k, k <= er_nit r -> exists g, full_grad P (fst (states k)) = Ok g /\
       svrg_epoch P B (match prox with Some q => q | None => no_prox end) st (fst (states k)) g (perms k) (states k) = Ok (states (S k))) /\
    er_nit r < max_iter /\ er_x r = fst (states (S (er_nit r))) /\
    er_log r = rev (map states (seq 0 (S (S (er_nit r))))) /\
    (forall k, k < er_nit r -> nltb K (vnorm1 (vsub (fst (states (S k))) (fst (states k)))) tol = false) /\
    er_success r = nltb K (vnorm1 (vsub (fst (states (S (er_nit r)))) (fst (states (er_nit r))))) tol /\
    (er_success r = false -> S (er_nit r) = max_iter).
Proof.
  intros K P x0 step prox ptr max_iter tol perms r E. unfold minimize_svrg in E. destruct step as [st|]; [|discriminate].
  apply bind_ok in E as (B & EB & E). rewrite svrg_loop_gen in E. set (px := match prox with Some q => q | None => no_prox end) in *.
  exists st, B, (run_state (svrg_ep P B px st perms) (x0, vzeros (p_d P))).
  split; [reflexivity|]. split; [exact EB|]. split; [reflexivity|].
  pose proof (gen_loop_trace (svrg_ep P B px st perms) fst tol (x0, vzeros (p_d P)) max_iter 0 [(x0, vzeros (p_d P))] r eq_refl ltac:(intros; lia) ltac:(intros; lia) E) as (T1 & T2).
  split; [|exact T2]. intros k Hk. specialize (T1 k Hk). unfold svrg_ep in T1. apply bind_ok in T1 as (g & Eg & Ee). exists g. split; [exact Eg|exact Ee].
Qed.
(** max_iter = 0 and step_size = None never return *)
Lemma main_C69_degenerate : forall (K : Num) (P : problem K) (x0 : vec K) (step : option K) (prox : option (sprox K)) (ptr : option (list nat)) (tol : K) (perms : nat -> list nat) (max_iter : nat),
  minimize_saga P x0 None prox ptr max_iter tol perms = Err ValueError /\ minimize_svrg P x0 None prox ptr max_iter tol perms = Err ValueError /\
  (forall r, minimize_saga P x0 step prox ptr 0 tol perms <> Ok r) /\ (forall r, minimize_svrg P x0 step prox ptr 0 tol perms <> Ok r).
Proof.
  intros. split; [reflexivity|]. split; [reflexivity|]. split; intros r E.
  - destruct (main_C69_saga_contract _ _ _ _ _ _ _ _ _ _ E) as (_ & _ & _ & _ & _ & _ & _ & H & _). lia.
  - destruct (main_C69_svrg_contract _ _ _ _ _ _ _ _ _ _ E) as (_ & _ & _ & _ & _ & _ & _ & H & _). lia.
Qed.
