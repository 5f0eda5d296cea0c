(** * TorchMain: proofs about utils_pytorch.make_func_and_grad *)
From Coq Require Import ZArith Bool List Lia Reals Lra.
From Verif Require Import Num Vec Spec RVec ConvexFacts SpecLoss ModelLoss ModelTorch ModelFrankWolfe FrankWolfeFacts FrankWolfeConv FrankWolfeMain FrankWolfeMain2 FrankWolfeRuns TraceSolve LossEnd.
Import ListNotations.
Set Implicit Arguments.

(** ** view *)
(** sh fits the requested shape: the same number of dimensions, equal where the request is not -1 *)
Definition fits (shape : list Z) (sh : list nat) : Prop :=
  Forall2 (fun d s => d = (-1)%Z \/ d = Z.of_nat s) shape sh.
Definition wild (shape : list Z) : nat := count_occ Z.eq_dec shape (-1)%Z.
Definition entries (sh : list nat) : nat := fold_right Nat.mul 1%nat sh.

Lemma wild_rest shape : (length shape - length (filter (fun d => negb (d =? -1)%Z) shape))%nat = wild shape /\ (length (filter (fun d => negb (d =? -1)%Z) shape) <= length shape)%nat.
Proof.
  unfold wild. induction shape as [|d s (IH & IL)]; [cbn; lia|]. cbn [filter count_occ length].
  destruct (Z.eqb_spec d (-1)) as [->|N]; cbn [negb].
  - destruct (Z.eq_dec (-1) (-1)); [lia|congruence].
  - destruct (Z.eq_dec d (-1)); [congruence|]. cbn [length]. lia.
Qed.
Lemma zprod_entries shape sh : wild shape = 0%nat -> fits shape sh -> zprod shape = Z.of_nat (entries sh).
Proof.
  intros W F. induction F as [|d s shape sh H F IH]; [reflexivity|]. unfold wild in *. cbn [count_occ] in W.
  destruct (Z.eq_dec d (-1)) as [->|N]; [lia|]. destruct H as [H|H]; [congruence|].
  cbn [zprod fold_right entries]. fold (zprod shape). fold (entries sh). rewrite (IH W), H. lia.
Qed.
Lemma fits_exact shape sh : wild shape = 0%nat -> fits shape sh -> sh = map Z.to_nat shape.
Proof.
  intros W F. induction F as [|d s shape sh H F IH]; [reflexivity|]. unfold wild in *. cbn [count_occ] in W.
  destruct (Z.eq_dec d (-1)) as [->|N]; [lia|]. destruct H as [H|H]; [congruence|]. cbn [map]. rewrite <- (IH W), H, Nat2Z.id. reflexivity.
Qed.
Lemma fits_map shape : wild shape = 0%nat -> existsb (fun d => (d <? -1)%Z) shape = false -> fits shape (map Z.to_nat shape).
Proof.
  unfold wild. induction shape as [|d s IH]; intros W E; [constructor|]. cbn [count_occ existsb map] in *.
  destruct (Z.eq_dec d (-1)) as [->|N]; [lia|]. apply orb_false_iff in E as (E1 & E2). apply Z.ltb_ge in E1.
  constructor; [right; rewrite Z2Nat.id; lia|apply IH; assumption].
Qed.
Lemma fits_low shape sh : fits shape sh -> existsb (fun d => (d <? -1)%Z) shape = false.
Proof.
  intros F. induction F as [|d s shape sh H F IH]; [reflexivity|]. cbn [existsb]. rewrite IH, orb_false_r. apply Z.ltb_ge. lia.
Qed.
Definition fill (q : nat) (shape : list Z) : list nat := map (fun d => if (d =? -1)%Z then q else Z.to_nat d) shape.
Lemma fill_none q shape : wild shape = 0%nat -> fill q shape = map Z.to_nat shape.
Proof.
  unfold wild, fill. induction shape as [|d s IH]; intros W; [reflexivity|]. cbn [count_occ map] in *.
  destruct (Z.eq_dec d (-1)) as [->|N]; [lia|]. destruct (Z.eqb_spec d (-1)); [congruence|]. rewrite (IH W). reflexivity.
Qed.
Lemma fill_fits q shape : existsb (fun d => (d <? -1)%Z) shape = false -> fits shape (fill q shape).
Proof.
  induction shape as [|d s IH]; intros E; [constructor|]. cbn [existsb fill map] in *. apply orb_false_iff in E as (E1 & E2). apply Z.ltb_ge in E1.
  constructor; [|apply IH; assumption]. destruct (Z.eqb_spec d (-1)); [left; assumption|right; rewrite Z2Nat.id; lia].
Qed.
Lemma one_wild shape sh : wild shape = 1%nat -> fits shape sh ->
  exists q, sh = fill q shape /\ Z.of_nat (entries sh) = (Z.of_nat q * zprod (filter (fun d => negb (d =? -1)%Z) shape))%Z.
Proof.
  intros W F. induction F as [|d s shape sh H F IH]; [discriminate W|]. unfold wild in *. cbn [count_occ] in W. cbn [filter fill map].
  destruct (Z.eq_dec d (-1)) as [->|N].
  - assert (W0 : wild shape = 0%nat) by (unfold wild; lia). exists s. rewrite Z.eqb_refl. cbn [negb]. split.
    + f_equal. fold (fill s shape). rewrite (fill_none s shape W0). apply fits_exact; assumption.
    + cbn [entries fold_right]. fold (entries sh). rewrite Nat2Z.inj_mul, <- (zprod_entries W0 F).
      replace (filter (fun d => negb (d =? -1)%Z) shape) with shape; [reflexivity|].
      clear -W0. unfold wild in W0. induction shape as [|d r IH]; [reflexivity|]. cbn [count_occ] in W0. cbn [filter].
      destruct (Z.eq_dec d (-1)) as [->|N]; [lia|]. destruct (Z.eqb_spec d (-1)); [congruence|]. cbn [negb]. f_equal. apply IH, W0.
  - destruct (IH W) as (q & E1 & E2). exists q. destruct (Z.eqb_spec d (-1)); [congruence|]. cbn [negb]. destruct H as [H|H]; [congruence|]. split.
    + rewrite H, Nat2Z.id. f_equal. exact E1.
    + cbn [entries fold_right zprod]. fold (entries sh). rewrite Nat2Z.inj_mul, E2, H. unfold zprod. ring.
Qed.
Lemma main_C94_view : forall (n : nat) (shape : list Z) (sh : list nat),
  infer n shape = Ok sh <->
  shape <> [] /\ (wild shape <= 1)%nat /\ fits shape sh /\ entries sh = n /\ (forall sh', fits shape sh' -> entries sh' = n -> sh' = sh).
Proof.
  intros n shape sh. unfold infer. destruct (wild_rest shape) as (W & _).
  destruct shape as [|d0 s0]; [split; [discriminate|intros (H & _); congruence]|]. set (shape := d0 :: s0) in *.
  destruct (existsb (fun d => (d <? -1)%Z) shape) eqn:E.
  { split; [discriminate|]. intros (_ & _ & F & _). pose proof (fits_low F). congruence. }
  rewrite W. set (rest := filter (fun d => negb (d =? -1)%Z) shape) in *. destruct (wild shape) as [|[|k]] eqn:Wk.
  - destruct (Z.eqb_spec (zprod shape) (Z.of_nat n)) as [P|P].
    + pose proof (fits_map shape Wk E) as F. split.
      * intros H. injection H as <-. repeat split; try lia; try discriminate; auto.
        { apply Nat2Z.inj. rewrite <- P. symmetry. apply zprod_entries; assumption. }
        { intros sh' F' _. exact (fits_exact Wk F'). }
      * intros (_ & _ & F' & _). f_equal. symmetry. exact (fits_exact Wk F').
    + split; [discriminate|]. intros (_ & _ & F & H & _). exfalso. apply P. rewrite (zprod_entries Wk F), H. reflexivity.
  - destruct (Z.eqb_spec (zprod rest) 0) as [P|P].
    + split; [discriminate|]. intros (_ & _ & F & H & U). exfalso. destruct (one_wild Wk F) as (q & E1 & E2). fold rest in E2. rewrite P in E2.
      assert (Hn : n = 0%nat) by lia.
      assert (Q : forall q', fill q' shape = sh).
      { intros q'. apply U; [apply fill_fits; exact E|]. destruct (one_wild Wk (fill_fits q' _ E)) as (q2 & _ & E3). fold rest in E3. rewrite P in E3. lia. }
      assert (Z1 : forall l, (0 < wild l)%nat -> fill 0 l <> fill 1 l).
      { unfold wild. induction l as [|d l IH]; cbn [count_occ fill map]; intros Hp; [lia|]. destruct (Z.eq_dec d (-1)) as [->|N]; [rewrite Z.eqb_refl; discriminate|].
        intros H0. injection H0 as _ H0. exact (IH Hp H0). }
      apply (Z1 shape); [lia|]. rewrite (Q 0%nat), (Q 1%nat). reflexivity.
    + destruct (Z.eqb_spec (Z.of_nat n mod zprod rest) 0) as [M|M].
      * assert (D : Z.of_nat n = (zprod rest * (Z.of_nat n / zprod rest))%Z).
        { pose proof (Z.div_mod (Z.of_nat n) (zprod rest) P). lia. }
        assert (R0 : (0 <= zprod rest)%Z).
        { clear -E. unfold rest. clearbody shape. induction shape as [|d s IH]; [cbn; lia|]. cbn [filter existsb] in *. apply orb_false_iff in E as (E1 & E2). apply Z.ltb_ge in E1.
          destruct (Z.eqb_spec d (-1)); cbn [negb]; [apply IH; exact E2|]. cbn [zprod fold_right]. apply Z.mul_nonneg_nonneg; [lia|apply IH; exact E2]. }
        assert (Q0 : (0 <= Z.of_nat n / zprod rest)%Z) by (apply Z.div_pos; lia).
        assert (Uq : forall sh', fits shape sh' -> entries sh' = n -> sh' = fill (Z.to_nat (Z.of_nat n / zprod rest)) shape).
        { intros sh' F' H'. destruct (one_wild Wk F') as (q & E1 & E2). fold rest in E2. rewrite E1. f_equal.
          assert (Z.of_nat q = (Z.of_nat n / zprod rest)%Z); [|lia]. rewrite <- H', E2. symmetry. apply Z.div_mul. exact P. }
        pose proof (fill_fits (Z.to_nat (Z.of_nat n / zprod rest)) shape E) as F.
        assert (En : entries (fill (Z.to_nat (Z.of_nat n / zprod rest)) shape) = n).
        { destruct (one_wild Wk F) as (q & E1 & E2). fold rest in E2. apply Nat2Z.inj. rewrite E2.
          assert (q = Z.to_nat (Z.of_nat n / zprod rest)) as ->.
          { clear -E1 Wk. assert (forall l a b, (0 < wild l)%nat -> fill a l = fill b l -> a = b) as H.
            { unfold wild. induction l as [|d l IH]; cbn [count_occ fill map]; intros a b Hp; [lia|]. destruct (Z.eq_dec d (-1)) as [->|N]; [rewrite Z.eqb_refl; intros H; injection H; auto|].
              intros H0. injection H0 as _ H0. exact (IH a b Hp H0). }
            symmetry. apply (H shape); [lia|exact E1]. }
          rewrite Z2Nat.id by exact Q0. rewrite D at 2. ring. }
        split.
        { intros H. injection H as <-. fold (fill (Z.to_nat (Z.of_nat n / zprod rest)) shape). repeat split; auto; discriminate. }
        { intros (_ & _ & F' & H' & _). rewrite (Uq sh F' H'). reflexivity. }
      * split; [discriminate|]. intros (_ & _ & F & H & _). exfalso. destruct (one_wild Wk F) as (q & E1 & E2). fold rest in E2.
        apply M. rewrite <- H, E2. apply Z.mod_mul. exact P.
  - split; [discriminate|]. intros (_ & H & _). lia.
Qed.
(** which error: no dimension at all is a TypeError, everything else a RuntimeError *)
Lemma main_C94_view_error : forall (n : nat) (shape : list Z) e, infer n shape = Err e -> e = if shape then TypeError else RuntimeError.
Proof.
  intros n shape e. unfold infer. destruct shape; [congruence|].
  repeat match goal with |- context [if ?b then _ else _] => destruct b | |- context [match ?x with O => _ | S _ => _ end] => destruct x end; congruence.
Qed.

(** ** one call *)
Definition leaves {K : Num} (lf : tensor K -> result (loss_out K)) (ps : list (option (vec K))) := forall t o, lf t = Ok o -> length (lo_gp o) = length ps.
Lemma main_C94_errors : forall (K : Num) (lf : tensor K -> result (loss_out K)) shape cast dt ps x xdt rg e ps',
  func_and_grad lf shape cast dt ps x xdt rg = (Err e, ps') ->
  (infer (length x) shape = Err e /\ ps' = ps) \/
  exists sh, infer (length x) shape = Ok sh /\
    ((match dt with Some d => d | None => xdt end = Integral /\ e = RuntimeError /\ ps' = ps) \/
     (match dt with Some d => d | None => xdt end = Floating /\
      (lf (mkTensor sh (map cast x)) = Err e /\ ps' = ps \/
       exists o, lf (mkTensor sh (map cast x)) = Ok o /\
         ((lo_requires o = false \/ entries (lo_shape o) <> 1%nat) /\ e = RuntimeError /\ ps' = ps \/
          lo_requires o = true /\ entries (lo_shape o) = 1%nat /\ rg = true /\ lo_gx o = None /\ e = AttributeError)))).
Proof.
  intros K lf shape cast dt ps x xdt rg e ps'. unfold func_and_grad. destruct (infer (length x) shape) as [sh|e0] eqn:EI.
  2:{ intros H. injection H as -> ->. left. auto. }
  intros H. right. exists sh. split; [reflexivity|]. destruct (match dt with Some d => d | None => xdt end).
  2:{ injection H as <- <-. auto. }
  right. split; [reflexivity|]. destruct (lf (mkTensor sh (map cast x))) as [o|e0] eqn:EL.
  2:{ injection H as -> <-. auto. }
  right. exists o. split; [reflexivity|]. change (numel (lo_shape o)) with (entries (lo_shape o)) in H.
  destruct (lo_requires o) eqn:ER; cbn [negb orb] in H.
  2:{ injection H as <- <-. auto. }
  destruct (Nat.eqb_spec (entries (lo_shape o)) 1) as [E1|E1]; cbn [negb] in H.
  2:{ injection H as <- <-. auto. }
  right. destruct rg; [|discriminate]. destruct (lo_gx o); [discriminate|]. injection H as <- _. auto.
Qed.
Lemma main_C94_state_free : forall (K : Num) (lf : tensor K -> result (loss_out K)) shape cast dt ps xs,
  fst (calls lf shape cast dt ps xs) = map (fun c => fst (func_and_grad lf shape cast dt [] (fst (fst c)) (snd (fst c)) (snd c))) xs.
Proof.
  intros K lf shape cast dt ps xs.
  assert (H1 : forall p q x t b, fst (func_and_grad lf shape cast dt p x t b) = fst (func_and_grad lf shape cast dt q x t b)).
  { intros p q x t b. unfold func_and_grad. destruct (infer (length x) shape); [|reflexivity].
    destruct (match dt with Some d => d | None => t end); [|reflexivity]. destruct (lf _) as [o|]; [|reflexivity].
    destruct (negb (lo_requires o) || _); [reflexivity|]. destruct b; [|reflexivity]. destruct (lo_gx o); reflexivity. }
  revert ps. induction xs as [|((x, t), b) xs IH]; intros ps; [reflexivity|]. cbn [calls map fst snd].
  destruct (func_and_grad lf shape cast dt ps x t b) as [r p1] eqn:E. destruct (calls lf shape cast dt p1 xs) as [rs p2] eqn:E2. cbn [fst].
  f_equal.
  - rewrite <- (H1 ps []), E. reflexivity.
  - rewrite <- (IH p1), E2. reflexivity.
Qed.
(** with or without the gradient: the same loss *)
Lemma main_C94_loss_only : forall (K : Num) (lf : tensor K -> result (loss_out K)) shape cast dt ps x xdt r ps',
  func_and_grad lf shape cast dt ps x xdt true = (Ok r, ps') ->
  exists v g, r = RPair v g /\ func_and_grad lf shape cast dt ps x xdt false = (Ok (RLoss v), ps').
Proof.
  intros K lf shape cast dt ps x xdt r ps'. unfold func_and_grad. destruct (infer (length x) shape); [|discriminate].
  destruct (match dt with Some d => d | None => xdt end); [|discriminate]. destruct (lf _) as [o|]; [|discriminate].
  destruct (negb (lo_requires o) || _); [discriminate|]. destruct (lo_gx o) as [g|]; [|discriminate]. intros H. injection H as <- <-.
  eexists; eexists; split; reflexivity.
Qed.

(** ** the gradient *)
Local Open Scope R_scope.
(** PyTorch computes F on tensors of shape sh, and its gradient: the loss is a scalar attached to the graph
    and backward() leaves in x_tensor.grad the gradient with respect to the entries in row-major order *)
Definition autograd (sh : list nat) (lf : tensor RN -> result (loss_out RN)) (F : tensor RN -> R) : Prop :=
  forall d : list R, length d = entries sh -> exists o g, lf (mkTensor (K:=RN) sh d) = Ok o /\ entries (lo_shape o) = 1%nat /\
    lo_data o = [F (mkTensor (K:=RN) sh d)] /\ lo_requires o = true /\ lo_gx o = Some g /\
    is_gradient (entries sh) (fun y => F (mkTensor (K:=RN) sh y)) d g.
Lemma main_C94_gradient : forall (lf : tensor RN -> result (loss_out RN)) (F : tensor RN -> R) shape sh dt ps (x : list R) xdt,
  autograd sh lf F -> infer (length x) shape = Ok sh -> match dt with Some d => d | None => xdt end = Floating ->
  exists (g : list R) ps',
    func_and_grad (K:=RN) lf shape (fun v => v) dt ps x xdt true = (Ok (RPair (K:=RN) (F (mkTensor (K:=RN) sh x)) g), ps') /\
    func_and_grad (K:=RN) lf shape (fun v => v) dt ps x xdt false = (Ok (RLoss (K:=RN) (F (mkTensor (K:=RN) sh x))), ps') /\
    is_gradient (length x) (fun y => F (mkTensor (K:=RN) sh y)) x g.
Proof.
  intros lf F shape sh dt ps x xdt HA EI Hd. pose proof EI as EI'. apply main_C94_view in EI' as (_ & _ & _ & En & _).
  destruct (HA x (eq_sym En)) as (o & g & E1 & E2 & E3 & E4 & E5 & E6).
  exists g, (accumulate_all (K:=RN) ps (lo_gp o)). rewrite En in E6.
  unfold func_and_grad. change (length (A:=carrier RN) x) with (length x). rewrite EI, Hd.
  change (carrier RN) with R in *. rewrite (map_id x : map (fun v : R => v) x = x).
  rewrite E1, E4. change (numel (lo_shape o)) with (entries (lo_shape o)). rewrite E2. cbn [negb orb Nat.eqb]. rewrite E5, E3. cbn [nth].
  split; [reflexivity|split; [reflexivity|exact E6]].
Qed.

(** ** a convex smooth F through the wrapper into Frank-Wolfe *)
Lemma convex_first_order n (F : list R -> R) (u v g : list R) : length u = n -> length v = n -> is_gradient n F u g ->
  (forall t, 0 <= t <= 1 -> F (lin (1 - t) u t v) <= (1 - t) * F u + t * F v) ->
  F u + dot g (vminus v u) <= F v.
Proof.
  intros Hu Hv (Hg & HF) Hc. apply Rnot_lt_le. intros Hlt.
  set (N := norm2 (vminus v u)). assert (N0 : 0 <= N) by apply sqrt_pos.
  set (gap := F u + dot g (vminus v u) - F v). assert (G0 : 0 < gap) by (unfold gap; lra).
  assert (E0 : 0 < gap / (2 * (N + 1))) by (apply Rdiv_lt_0_compat; lra).
  destruct (HF _ E0) as (del & D0 & HD).
  set (t := Rmin 1 (del / (N + 1))). assert (T0 : 0 < t) by (apply Rmin_glb_lt; [lra|apply Rdiv_lt_0_compat; lra]).
  assert (T1 : t <= 1) by apply Rmin_l.
  assert (TN : t * N <= del).
  { apply Rle_trans with (del / (N + 1) * N); [apply Rmult_le_compat_r; [exact N0|apply Rmin_r]|].
    apply Rle_trans with (del / (N + 1) * (N + 1)); [apply Rmult_le_compat_l; [apply Rlt_le, Rdiv_lt_0_compat; lra|lra]|]. right. field. lra. }
  assert (Ed : vminus (lin (1 - t) u t v) u = smul t (vminus v u)).
  { apply (list_ext _ _ 0); [leng|]. intros i Hi. rewrite nth_smul. unfold vminus. repeat rewrite nth_lin by leng. ring. }
  specialize (HD (lin (1 - t) u t v) ltac:(leng)). rewrite Ed in HD.
  rewrite norm2_smul, Rabs_right in HD by lra. fold N in HD. specialize (HD TN).
  rewrite dot_smul_r in HD. specialize (Hc t ltac:(lra)). pose proof (Rle_abs (- (F (lin (1 - t) u t v) - F u - t * dot g (vminus v u)))) as HA. rewrite Rabs_Ropp in HA.
  assert (K1 : gap / (2 * (N + 1)) * N <= gap / 2).
  { apply Rle_trans with (gap / (2 * (N + 1)) * (N + 1)); [apply Rmult_le_compat_l; lra|]. right. field. lra. }
  assert (K2 : t * (dot g (vminus v u)) - t * (gap / 2) <= t * (F v - F u)).
  { assert (gap / (2 * (N + 1)) * (t * N) <= t * (gap / 2)); [|lra].
    replace (gap / (2 * (N + 1)) * (t * N)) with (t * (gap / (2 * (N + 1)) * N)) by ring. apply Rmult_le_compat_l; lra. }
  assert (dot g (vminus v u) - gap / 2 <= F v - F u) by (apply (Rmult_le_reg_l t); lra).
  unfold gap in *. lra.
Qed.
Lemma main_C94_frank_wolfe : forall (lf : tensor RN -> result (loss_out RN)) (F : tensor RN -> R) shape sh n alpha (L tol : R) max_iter x0 y,
  autograd sh lf F -> infer n shape = Ok sh -> (0 < n)%nat ->
  (forall u v t, length u = n -> length v = n -> 0 <= t <= 1 ->
     F (mkTensor (K:=RN) sh (lin (1 - t) u t v)) <= (1 - t) * F (mkTensor (K:=RN) sh u) + t * F (mkTensor (K:=RN) sh v)) ->
  (forall u v g, length u = n -> length v = n -> is_gradient n (fun y => F (mkTensor (K:=RN) sh y)) u g ->
     F (mkTensor (K:=RN) sh v) <= F (mkTensor (K:=RN) sh u) + dot g (vminus v u) + L / 2 * dist2 v u) ->
  0 <= alpha -> 0 < L -> 0 <= tol -> (0 < max_iter)%nat -> length x0 = n -> l1_ball alpha x0 -> length y = n -> l1_ball alpha y ->
  let call := fun x => fst (func_and_grad (K:=RN) lf shape (fun v => v) None [] x Floating true) in
  exists r : fw_result RN,
    minimize_fw (as_fg call) (l1_oracle (K:=RN) alpha) FSDR (Some L) tol max_iter None Vanilla x0 = Ok r /\
    l1_ball alpha (fr_x r) /\
    (F (mkTensor (K:=RN) sh (fr_x r)) - F (mkTensor (K:=RN) sh y) <= tol \/
     F (mkTensor (K:=RN) sh (fr_x r)) - F (mkTensor (K:=RN) sh y) <= 8 * L * (alpha * alpha) / (INR max_iter + 2)).
Proof.
  intros lf F shape sh n alpha L tol max_iter x0 y HA EI Hn Hcv Hsm Ha HL Ht Hm Hx Bx Hy By call.
  assert (C : forall x : list R, length x = n -> exists g : list R, as_fg (K:=RN) call x = (F (mkTensor (K:=RN) sh x), g) /\ is_gradient n (fun y => F (mkTensor (K:=RN) sh y)) x g).
  { intros x Ex. destruct (main_C94_gradient (lf:=lf) (F:=F) shape (sh:=sh) None [] x Floating HA) as (g & ps' & E & _ & G); [rewrite Ex; exact EI|reflexivity|].
    exists g. unfold as_fg, call. rewrite E. rewrite Ex in G. split; [reflexivity|exact G]. }
  assert (O : forall x : list R, length x = n -> objective (as_fg (K:=RN) call) x = F (mkTensor (K:=RN) sh x)).
  { intros x Ex. unfold objective. destruct (C x Ex) as (g & -> & _). reflexivity. }
  assert (G : forall x : list R, length x = n -> is_gradient n (fun y => F (mkTensor (K:=RN) sh y)) x (gradient (as_fg (K:=RN) call) x)).
  { intros x Ex. unfold gradient. destruct (C x Ex) as (g & -> & H). exact H. }
  destruct (main_C47_l1_ball n alpha L (as_fg (K:=RN) call) tol max_iter x0 y Hn Ha HL Ht Hm) as (r & E & B & Lr & Rt); auto.
  - intros x Ex. destruct (C x Ex) as (g & -> & (H & _)). exact H.
  - intros u v Hu Hv. rewrite !O by assumption. apply (@convex_first_order n (fun y => F (mkTensor (K:=RN) sh y))); auto.
  - intros u v Hu Hv. rewrite !O by assumption. apply Hsm; auto.
  - exists r. split; [exact E|split; [exact B|]].
    assert (Lx : length (fr_x r) = n).
    { destruct (main_C77_l1_oracle_partial n alpha Hn Ha) as (Hl & Hc).
      refine (proj1 (proj1 (main_C41_feasible n (fun v => length v = n /\ l1_ball alpha v) (as_fg (K:=RN) call) (l1_oracle (K:=RN) alpha) FSDR (Some L) tol max_iter None x0 r _ _ _ Hx (conj Hx Bx) HL E))).
      - intros x Ex. destruct (C x Ex) as (g & -> & (H & _)). exact H.
      - intros u v t Hu Hv (_ & Du) (_ & Dv) Htt. split; [leng|apply (Hc u v t); assumption].
      - intros u x a Hu Hxx (_ & Dx). destruct (Hl u x a Hu Hxx Dx) as (o & A1 & A2 & (A3 & A5 & _) & A4). exists o. repeat split; auto. exact (eq_trans A3 Hu). }
    rewrite !O in Rt by assumption. exact Rt.
Qed.

(** ** the gradients of the weights *)
Lemma accumulate_all_length (K : Num) (ps gs : list (option (vec K))) : length (accumulate_all ps gs) = length ps.
Proof. revert gs. induction ps as [|p ps IH]; intros [|g gs]; cbn; auto. Qed.
Lemma nth_accumulate (K : Num) (ps gs : list (option (vec K))) j : nth j (accumulate_all ps gs) None = accumulate (nth j ps None) (if (j <? length ps)%nat then nth j gs None else None).
Proof.
  assert (N : forall p : option (vec K), accumulate p None = p) by (intros []; reflexivity).
  revert gs j. induction ps as [|p ps IH]; intros gs j.
  - cbn [accumulate_all length]. destruct j; reflexivity.
  - destruct gs as [|g gs]; destruct j as [|j]; cbn [accumulate_all nth length]; try reflexivity.
    + symmetry. apply N.
    + destruct (_ <? _)%nat; symmetry; apply N.
    + rewrite IH. reflexivity.
Qed.
(** a weight that is not in the graph keeps its .grad, whatever is called *)
Lemma main_C95_untouched_partial : forall (K : Num) (lf : tensor K -> result (loss_out K)) shape cast dt ps xs j,
  (forall t o, lf t = Ok o -> nth j (lo_gp o) None = None) ->
  nth j (snd (calls lf shape cast dt ps xs)) None = nth j ps None.
Proof.
  intros K lf shape cast dt ps xs j Hj. revert ps. induction xs as [|((x, t), b) xs IH]; intros ps; [reflexivity|]. cbn [calls].
  destruct (func_and_grad lf shape cast dt ps x t b) as [r p1] eqn:E. specialize (IH p1). destruct (calls lf shape cast dt p1 xs) as [rs p2]. cbn [snd] in *. rewrite IH.
  enough (E1 : nth j (snd (func_and_grad lf shape cast dt ps x t b)) None = nth j ps None) by (rewrite E in E1; exact E1). clear - Hj.
  unfold func_and_grad. destruct (infer (length x) shape); [|reflexivity]. destruct (match dt with Some d => d | None => t end); [|reflexivity].
  destruct (lf _) as [o|] eqn:EL; [|reflexivity]. destruct (negb (lo_requires o) || _); [reflexivity|].
  assert (nth j (accumulate_all ps (lo_gp o)) None = nth j ps None).
  { rewrite nth_accumulate, (Hj _ _ EL). destruct (_ <? _)%nat; destruct (nth j ps None); reflexivity. }
  destruct b; [destruct (lo_gx o)|]; assumption.
Qed.

(** k evaluations at the same point, with or without return_gradient, add k times the gradient of the loss with
    respect to a weight to its .grad *)
Lemma main_C95_accumulates : forall (lf : tensor RN -> result (loss_out RN)) shape dt ps (x : list R) xdt bs sh o j (p g : list R),
  infer (length x) shape = Ok sh -> match dt with Some d => d | None => xdt end = Floating ->
  lf (mkTensor (K:=RN) sh x) = Ok o -> lo_requires o = true -> entries (lo_shape o) = 1%nat ->
  (j < length ps)%nat -> nth j ps None = Some p -> nth j (lo_gp o) None = Some g -> length p = length g ->
  nth j (snd (calls (K:=RN) lf shape (fun v => v) dt ps (map (fun b => (x, xdt, b)) bs))) None = Some (lin 1 p (INR (length bs)) g).
Proof.
  intros lf shape dt ps x xdt bs sh o j p g EI Hd EL ER En Hj Ep Eg Hlen. revert ps p Hj Ep Hlen.
  induction bs as [|b bs IH]; intros ps p Hj Ep Hlen.
  - cbn [map calls snd length INR]. refine (eq_trans Ep _). f_equal. apply (list_ext _ _ 0); [leng|]. intros i Hi. rewrite nth_lin by leng. ring.
  - cbn [map calls].
    destruct (func_and_grad (K:=RN) lf shape (fun v : R => v) dt ps x xdt b) as [r p1] eqn:E.
    assert (E1 : p1 = accumulate_all (K:=RN) ps (lo_gp o)).
    { unfold func_and_grad in E. change (length (A:=carrier RN) x) with (length x) in E. rewrite EI, Hd in E.
      change (carrier RN) with R in E. rewrite (map_id x : map (fun v : R => v) x = x) in E.
      rewrite EL, ER in E. change (numel (lo_shape o)) with (entries (lo_shape o)) in E. rewrite En in E. cbn [negb orb Nat.eqb] in E.
      destruct b; [destruct (lo_gx o)|]; injection E as _ <-; reflexivity. }
    assert (E2 : nth j p1 None = Some (lin 1 p 1 g)).
    { rewrite E1. refine (eq_trans (nth_accumulate (K:=RN) ps (lo_gp o) j) _).
      assert (Hb : (j <? length (A:=option (vec RN)) ps)%nat = true) by (apply Nat.ltb_lt; exact Hj). rewrite Hb.
      refine (eq_trans (f_equal2 (accumulate (K:=RN)) Ep Eg) _). cbn [accumulate]. f_equal.
      rewrite vadd_R. apply (list_ext _ _ 0); [leng|]. intros i Hi. reflexivity. }
    specialize (IH p1 (lin 1 p 1 g)). change (func_and_grad (K:=RN) lf shape (fun v : RN => v) dt ps x xdt b) with (func_and_grad (K:=RN) lf shape (fun v : R => v) dt ps x xdt b). rewrite E.
    change (carrier RN) with R in *.
    destruct (calls _ _ _ _ p1 _) as [rs p2]. cbn [snd] in *. refine (eq_trans (IH _ _ _) _).
    + rewrite E1. refine (eq_ind_r (fun k => (j < k)%nat) _ (accumulate_all_length (K:=RN) ps (lo_gp o))). exact Hj.
    + exact E2.
    + leng.
    + f_equal. change (length (b :: bs)) with (S (length bs)). rewrite S_INR. apply (list_ext _ _ 0); [leng|]. intros i Hi. repeat rewrite nth_lin by leng. ring.
Qed.
(** "evaluating the objective leaves the gradients of the weights alone" is false, even for the value alone *)
Lemma main_C95_refuted : exists (lf : tensor RN -> result (loss_out RN)) (F : tensor RN -> R) shape ps x,
  autograd [2%nat] lf F /\ length x = 2%nat /\
  snd (func_and_grad (K:=RN) lf shape (fun v => v) None ps x Floating false) <> ps.
Proof.
  (* loss = (w * x).sum() with w = (1, 1) a weight: the gradient with respect to w is x *)
  exists (fun t : tensor RN => Ok (mkLossOut (K:=RN) [] [nth 0 (t_data t) 0 + nth 1 (t_data t) 0] true (Some [1; 1]) [Some (t_data t)])),
         (fun t : tensor RN => nth 0 (t_data t) 0 + nth 1 (t_data t) 0), [(-1)%Z], [None], [1; 2].
  split; [|split; [reflexivity|]].
  - intros d Hd. cbn [entries fold_right Nat.mul Nat.add] in Hd. destruct d as [|a [|b [|? ?]]]; try discriminate Hd.
    eexists; eexists. split; [reflexivity|]. cbn. repeat split; try reflexivity.
    intros eps He. exists 1. split; [lra|]. intros y Hy _. destruct y as [|a' [|b' [|? ?]]]; try discriminate Hy.
    cbn. unfold dot, vminus, lin. cbn. match goal with |- Rabs ?e <= _ => replace e with 0 by ring end. rewrite Rabs_R0.
    apply Rmult_le_pos; [lra|apply sqrt_pos].
  - cbn. discriminate.
Qed.
