(** * C94, C95: utils_pytorch.make_func_and_grad *)
From Coq Require Import ZArith Bool List Lia Reals Lra.
From Verif Require Import Num Vec Spec RVec ConvexFacts SpecLoss ModelLoss ModelTorch ModelFrankWolfe FrankWolfeMain FrankWolfeMain2 TorchMain LossEnd LossFacts.
Import ListNotations.

(** C94.  view( *shape ) succeeds exactly when one shape, and only one, fits the request *)
Theorem C94_view : forall (n : nat) (shape : list Z) (sh : list nat),
  infer n shape = Ok sh <->
  shape <> [] /\ (wild shape <= 1)%nat /\ fits shape sh /\ entries sh = n /\ (forall sh', fits shape sh' -> entries sh' = n -> sh' = sh).
Proof. exact main_C94_view. Qed.
Print Assumptions C94_view.
Theorem C94_view_error : forall (n : nat) (shape : list Z) e, infer n shape = Err e -> e = if shape then TypeError else RuntimeError.
Proof. exact main_C94_view_error. Qed.
Print Assumptions C94_view_error.
(** every way a call can fail, and what it leaves behind *)
Theorem C94_errors : forall (K : Num) (lf : tensor K -> result (loss_out K)) shape cast dt ps x xdt rg e ps',
  func_and_grad lf shape cast dt ps x xdt rg = (Err e, ps') ->
  (infer (length x) shape = Err e /\ ps' = ps) \/
  exists sh, infer (length x) shape = Ok sh /\
    ((match dt with Some d => d | None => xdt end = Integral /\ e = RuntimeError /\ ps' = ps) \/
     (match dt with Some d => d | None => xdt end = Floating /\
      (lf (mkTensor sh (map cast x)) = Err e /\ ps' = ps \/
       exists o, lf (mkTensor sh (map cast x)) = Ok o /\
         ((lo_requires o = false \/ entries (lo_shape o) <> 1%nat) /\ e = RuntimeError /\ ps' = ps \/
          lo_requires o = true /\ entries (lo_shape o) = 1%nat /\ rg = true /\ lo_gx o = None /\ e = AttributeError)))).
Proof. exact main_C94_errors. Qed.
Print Assumptions C94_errors.
(** the results of a sequence of calls do not depend on the calls before *)
Theorem C94_state_free : forall (K : Num) (lf : tensor K -> result (loss_out K)) shape cast dt ps xs,
  fst (calls lf shape cast dt ps xs) = map (fun c => fst (func_and_grad lf shape cast dt [] (fst (fst c)) (snd (fst c)) (snd c))) xs.
Proof. exact main_C94_state_free. Qed.
Print Assumptions C94_state_free.
Theorem C94_loss_only : forall (K : Num) (lf : tensor K -> result (loss_out K)) shape cast dt ps x xdt r ps',
  func_and_grad lf shape cast dt ps x xdt true = (Ok r, ps') ->
  exists v g, r = RPair v g /\ func_and_grad lf shape cast dt ps x xdt false = (Ok (RLoss v), ps').
Proof. exact main_C94_loss_only. Qed.
Print Assumptions C94_loss_only.
Local Open Scope R_scope.
Theorem C94_gradient : forall (lf : tensor RN -> result (loss_out RN)) (F : tensor RN -> R) shape sh dt ps (x : list R) xdt,
  autograd sh lf F -> infer (length x) shape = Ok sh -> match dt with Some d => d | None => xdt end = Floating ->
  exists (g : list R) ps',
    func_and_grad (K:=RN) lf shape (fun v => v) dt ps x xdt true = (Ok (RPair (K:=RN) (F (mkTensor (K:=RN) sh x)) g), ps') /\
    func_and_grad (K:=RN) lf shape (fun v => v) dt ps x xdt false = (Ok (RLoss (K:=RN) (F (mkTensor (K:=RN) sh x))), ps') /\
    is_gradient (length x) (fun y => F (mkTensor (K:=RN) sh y)) x g.
Proof. exact main_C94_gradient. Qed.
Print Assumptions C94_gradient.
Theorem C94_frank_wolfe : forall (lf : tensor RN -> result (loss_out RN)) (F : tensor RN -> R) shape sh n alpha (L tol : R) max_iter x0 y,
  autograd sh lf F -> infer n shape = Ok sh -> (0 < n)%nat ->
  (forall u v t, length u = n -> length v = n -> 0 <= t <= 1 ->
     F (mkTensor (K:=RN) sh (lin (1 - t) u t v)) <= (1 - t) * F (mkTensor (K:=RN) sh u) + t * F (mkTensor (K:=RN) sh v)) ->
  (forall u v g, length u = n -> length v = n -> is_gradient n (fun y => F (mkTensor (K:=RN) sh y)) u g ->
     F (mkTensor (K:=RN) sh v) <= F (mkTensor (K:=RN) sh u) + dot g (vminus v u) + L / 2 * dist2 v u) ->
  0 <= alpha -> 0 < L -> 0 <= tol -> (0 < max_iter)%nat -> length x0 = n -> l1_ball alpha x0 -> length y = n -> l1_ball alpha y ->
  let call := fun x => fst (func_and_grad (K:=RN) lf shape (fun v => v) None [] x Floating true) in
  exists r : fw_result RN,
    minimize_fw (as_fg call) (l1_oracle (K:=RN) alpha) FSDR (Some L) tol max_iter None Vanilla x0 = Ok r /\
    l1_ball alpha (fr_x r) /\
    (F (mkTensor (K:=RN) sh (fr_x r)) - F (mkTensor (K:=RN) sh y) <= tol \/
     F (mkTensor (K:=RN) sh (fr_x r)) - F (mkTensor (K:=RN) sh y) <= 8 * L * (alpha * alpha) / (INR max_iter + 2)).
Proof. exact main_C94_frank_wolfe. Qed.
Print Assumptions C94_frank_wolfe.

(** C95.  "evaluating the objective leaves the gradients of the weights alone" *)
Theorem C95_refuted : exists (lf : tensor RN -> result (loss_out RN)) (F : tensor RN -> R) shape ps x,
  autograd [2%nat] lf F /\ length x = 2%nat /\
  snd (func_and_grad (K:=RN) lf shape (fun v => v) None ps x Floating false) <> ps.
Proof. exact main_C95_refuted. Qed.
Print Assumptions C95_refuted.
Theorem C95_accumulates : forall (lf : tensor RN -> result (loss_out RN)) shape dt ps (x : list R) xdt bs sh o j (p g : list R),
  infer (length x) shape = Ok sh -> match dt with Some d => d | None => xdt end = Floating ->
  lf (mkTensor (K:=RN) sh x) = Ok o -> lo_requires o = true -> entries (lo_shape o) = 1%nat ->
  (j < length ps)%nat -> nth j ps None = Some p -> nth j (lo_gp o) None = Some g -> length p = length g ->
  nth j (snd (calls (K:=RN) lf shape (fun v => v) dt ps (map (fun b => (x, xdt, b)) bs))) None = Some (lin 1 p (INR (length bs)) g).
Proof. exact main_C95_accumulates. Qed.
Print Assumptions C95_accumulates.
Theorem C95_untouched_partial : forall (K : Num) (lf : tensor K -> result (loss_out K)) shape cast dt ps xs j,
  (forall t o, lf t = Ok o -> nth j (lo_gp o) None = None) ->
  nth j (snd (calls lf shape cast dt ps xs)) None = nth j ps None.
Proof. exact main_C95_untouched_partial. Qed.
Print Assumptions C95_untouched_partial.

(** a loss meeting the hypotheses: half the squared distance to (1, 2, 3, 4), on 2 x 2 tensors *)
Definition half_sq (t : tensor RN) : R := / 2 * dot (vminus (t_data t) [1; 2; 3; 4]) (vminus (t_data t) [1; 2; 3; 4]).
Definition half_sq_torch (t : tensor RN) : result (loss_out RN) :=
  Ok (mkLossOut (K:=RN) [] [half_sq t] true (Some (vminus (t_data t) [1; 2; 3; 4])) []).
Example C94_view_hyp : infer 12 [2; -1; 3]%Z = Ok [2; 2; 3]%nat /\ infer 12 [5; -1]%Z = Err RuntimeError /\ infer 0 [0; -1]%Z = Err RuntimeError /\
  infer 4 [-1; -1]%Z = Err RuntimeError /\ infer 1 [] = Err TypeError /\ infer 0 [-1; 3]%Z = Ok [0; 3]%nat.
Proof. repeat split. Qed.
Example C94_gradient_hyp : autograd [2; 2]%nat half_sq_torch half_sq /\ infer 4 [2; -1]%Z = Ok [2; 2]%nat.
Proof.
  split; [|reflexivity]. intros d Hd. eexists; eexists. split; [reflexivity|]. cbn [lo_shape lo_data lo_requires lo_gx t_data entries fold_right Nat.mul Nat.add] in *.
  assert (Ld : length d = 4%nat) by exact Hd. split; [reflexivity|split; [reflexivity|split; [reflexivity|split; [reflexivity|]]]]. split; [unfold vminus; rewrite lin_length, Ld; reflexivity|].
  intros eps He. exists (2 * eps). split; [lra|]. intros y Hy Hn. unfold half_sq. cbn [t_data].
  match goal with |- Rabs ?e <= _ => replace e with (/ 2 * dot (vminus y d) (vminus y d)) end.
  - rewrite <- (sqrt_sqrt (dot (vminus y d) (vminus y d))) by apply dot_self_nonneg. fold (norm2 (vminus y d)).
    assert (0 <= norm2 (vminus y d)) by apply sqrt_pos. rewrite Rabs_right by nra. nra.
  - destruct d as [|d1 [|d2 [|d3 [|d4 [|? ?]]]]]; try discriminate Ld. destruct y as [|y1 [|y2 [|y3 [|y4 [|? ?]]]]]; try discriminate Hy.
    unfold dot, vminus, lin. cbn. field.
Qed.
Lemma half_sq_gradient (u g : list R) : length u = 4%nat -> is_gradient 4 (fun y => half_sq (mkTensor (K:=RN) [2; 2]%nat y)) u g -> g = vminus u [1; 2; 3; 4].
Proof.
  intros Hu Hg. destruct (proj1 C94_gradient_hyp u Hu) as (o & g' & E & _ & _ & _ & E5 & G). injection E as <-. cbn in E5. injection E5 as <-.
  exact (gradient_unique 4 _ u g _ Hu Hg G).
Qed.
Example C94_frank_wolfe_hyp :
  (forall u v t, length u = 4%nat -> length v = 4%nat -> 0 <= t <= 1 ->
     half_sq (mkTensor (K:=RN) [2; 2]%nat (lin (1 - t) u t v)) <= (1 - t) * half_sq (mkTensor (K:=RN) [2; 2]%nat u) + t * half_sq (mkTensor (K:=RN) [2; 2]%nat v)) /\
  (forall u v g, length u = 4%nat -> length v = 4%nat -> is_gradient 4 (fun y => half_sq (mkTensor (K:=RN) [2; 2]%nat y)) u g ->
     half_sq (mkTensor (K:=RN) [2; 2]%nat v) <= half_sq (mkTensor (K:=RN) [2; 2]%nat u) + dot g (vminus v u) + 1 / 2 * dist2 v u).
Proof.
  split.
  - intros u v t Hu Hv Ht. destruct u as [|u1 [|u2 [|u3 [|u4 [|? ?]]]]]; try discriminate Hu. destruct v as [|v1 [|v2 [|v3 [|v4 [|? ?]]]]]; try discriminate Hv.
    unfold half_sq, dot, vminus, lin. cbn.
    assert (H : forall a b c : R, (((1 - t) * a + t * b) - c) * (((1 - t) * a + t * b) - c) <= (1 - t) * ((a - c) * (a - c)) + t * ((b - c) * (b - c))).
    { intros a b c. pose proof (Rle_0_sqr (a - b)). unfold Rsqr in *. assert (0 <= t * (1 - t)) by nra. nra. }
    pose proof (H u1 v1 1). pose proof (H u2 v2 2). pose proof (H u3 v3 3). pose proof (H u4 v4 4). nra.
  - intros u v g Hu Hv Hg. rewrite (half_sq_gradient u g Hu Hg).
    destruct u as [|u1 [|u2 [|u3 [|u4 [|? ?]]]]]; try discriminate Hu. destruct v as [|v1 [|v2 [|v3 [|v4 [|? ?]]]]]; try discriminate Hv.
    right. unfold half_sq, dot, vminus, lin, dist2. cbn. unfold dot, vminus, lin. cbn. field.
Qed.
Example C94_frank_wolfe_nonvacuous : exists r : fw_result RN,
  minimize_fw (as_fg (fun x => fst (func_and_grad (K:=RN) half_sq_torch [2; -1]%Z (fun v => v) None [] x Floating true))) (l1_oracle (K:=RN) 20) FSDR (Some 1) (1 / 100) (1000 * 1000) None Vanilla [0; 0; 0; 0] = Ok r /\
  half_sq (mkTensor (K:=RN) [2; 2]%nat (fr_x r)) <= 1 / 100.
Proof.
  destruct C94_gradient_hyp as (A & B). destruct C94_frank_wolfe_hyp as (P & Q).
  destruct (C94_frank_wolfe half_sq_torch half_sq [2; -1]%Z [2; 2]%nat 4 20 1 (1 / 100) (1000 * 1000) [0; 0; 0; 0] [1; 2; 3; 4] A B) as (r & E & _ & H); auto; try lra; try lia.
  - unfold l1_ball, l1. cbn. repeat rewrite Rabs_R0. lra.
  - unfold l1_ball, l1. cbn. repeat rewrite Rabs_right by lra. lra.
  - exists r. split; [exact E|]. assert (E0 : half_sq (mkTensor (K:=RN) [2; 2]%nat [1; 2; 3; 4]) = 0) by (unfold half_sq, dot, vminus, lin; cbn; ring).
    rewrite E0, mult_INR in H. replace (INR 1000) with 1000 in H by (cbn; lra). destruct H as [H|H]; [lra|].
    assert (8 * 1 * (20 * 20) / (1000 * 1000 + 2) <= 1 / 100) by lra. lra.
Qed.
(** loss = (w * x).sum() with w = (1, 1) a weight: its .grad grows by x at each of the three calls *)
Definition wx_torch (t : tensor RN) : result (loss_out RN) :=
  Ok (mkLossOut (K:=RN) [] [nth 0 (t_data t) 0 + nth 1 (t_data t) 0] true (Some [1; 1]) [Some (t_data t)]).
Example C95_nonvacuous : nth 0 (snd (calls (K:=RN) wx_torch [-1]%Z (fun v => v) None [Some [0; 0]] (map (fun b => ([5; 7], Floating, b)) [true; false; true]))) None = Some [15; 21].
Proof.
  rewrite (C95_accumulates wx_torch [-1]%Z None [Some [0; 0]] [5; 7] Floating [true; false; true] [2%nat]
    (mkLossOut (K:=RN) [] [5 + 7] true (Some [1; 1]) [Some [5; 7]]) 0 [0; 0] [5; 7]); try reflexivity; [|cbn; lia].
  f_equal. unfold lin. cbn. f_equal; [ring|f_equal; ring].
Qed.
