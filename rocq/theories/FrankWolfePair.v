(** * Frank-Wolfe, pairwise variant: the active set *)
From Coq Require Import ZArith Reals List Bool Lra Lia Psatz.
From Verif Require Import Num Vec Spec RVec ModelConstraint ModelFrankWolfe ConvexFacts ConstraintFacts FrankWolfeFacts FrankWolfeConv FrankWolfeMain.
Import ListNotations.
Open Scope R_scope.

(** ** Specification vocabulary *)
Definition key := (R * nat)%type.
(** weight of a vertex, 0 when absent *)
Fixpoint weight (a : list (key * R)) (k : key) : R :=
  match a with
  | [] => 0
  | (k', v) :: a' => if Req_EM_T (fst k) (fst k') then if Nat.eqb (snd k) (snd k') then v else weight a' k else weight a' k
  end.
(** weighted sum of the represented vertices sign * alpha * e_index *)
Fixpoint wsum (n : nat) (alpha : R) (a : list (key * R)) : list R :=
  match a with
  | [] => zeros n
  | (k, v) :: a' => lin v (vertex n (alpha * fst k) (snd k)) 1 (wsum n alpha a')
  end.
Definition convex_decomposition (n : nat) (alpha : R) (a : list (key * R)) (x : list R) : Prop :=
  NoDup (map fst a) /\
  Forall (fun kv : key * R => 0 <= snd kv /\ (snd (fst kv) < n)%nat /\ Rabs (fst (fst kv)) <= 1) a /\
  Rsum (map snd a) = 1 /\ x = wsum n alpha a.

Lemma wsum_length n alpha a : length (wsum n alpha a) = n.
Proof. induction a as [|[k v] a IH]; cbn [wsum]; [apply zeros_length|]. rewrite lin_length, vertex_length, IH. lia. Qed.

Definition keq (a b : key) : {a = b} + {a <> b}.
Proof. decide equality; [apply Nat.eq_dec|apply Req_EM_T]. Defined.
Lemma rep_eqb_spec (a b : key) : BoolSpec (a = b) (a <> b) (@rep_eqb RN a b).
Proof.
  unfold rep_eqb; rn. destruct a as [a i], b as [b j]; cbn [fst snd].
  destruct (Reqb_spec a b) as [->|H]; cbn; [|constructor; congruence].
  destruct (Nat.eqb_spec i j) as [->|H]; constructor; congruence.
Qed.
Lemma rep_eqb_refl (a : key) : @rep_eqb RN a a = true.
Proof. destruct (rep_eqb_spec a a); congruence. Qed.
Lemma weight_cons k k' v a : weight ((k', v) :: a) k = if keq k k' then v else weight a k.
Proof.
  cbn [weight]. destruct k as [s i], k' as [s' i']; cbn [fst snd].
  destruct (Req_EM_T s s') as [->|H].
  - destruct (Nat.eqb_spec i i') as [->|H]; destruct (keq _ _); congruence.
  - destruct (keq _ _); congruence.
Qed.

(** sum of [w * phi k] over the dictionary *)
Fixpoint S (phi : key -> R) (a : list (key * R)) : R :=
  match a with [] => 0 | (k, v) :: a' => v * phi k + S phi a' end.

Notation dset := (@dset RN). Notation ddel := (@ddel RN). Notation dget := (@dget RN).
Implicit Types (d : list (key * R)) (k : key).

Lemma dfind_weight d k : (exists v, @dfind RN d k = Some v /\ weight d k = v /\ In (k, v) d) \/
  (@dfind RN d k = None /\ weight d k = 0 /\ ~ In k (map fst d)).
Proof.
  induction d as [|[k' v] d IH]; [right; cbn; auto|]. rewrite weight_cons. cbn [dfind map fst].
  destruct (rep_eqb_spec k k') as [->|Hn].
  - left. exists v. destruct (keq k' k'); [|congruence]. split; [reflexivity|]. split; [reflexivity|left; reflexivity].
  - destruct (keq k k'); [congruence|]. destruct IH as [(v' & A & B & C)|(A & B & C)].
    + left. exists v'. split; [exact A|]. split; [exact B|right; exact C].
    + right. split; [exact A|]. split; [exact B|]. intros [E|E]; [congruence|exact (C E)].
Qed.
Lemma weight_notin d k : ~ In k (map fst d) -> weight d k = 0.
Proof.
  destruct (dfind_weight d k) as [(v & A & B & C)|(A & B & C)]; [|auto].
  intros H. exfalso. apply H. apply in_map_iff. exists (k, v). auto.
Qed.
Lemma weight_in d k v : NoDup (map fst d) -> In (k, v) d -> weight d k = v.
Proof.
  induction d as [|[k' v'] d IH]; [intros _ []|]. cbn [map fst]. intros Hn Hin. inversion Hn as [|? ? N1 N2]; subst.
  rewrite weight_cons. destruct Hin as [E|Hin].
  - injection E as -> ->. destruct (keq k k); congruence.
  - destruct (keq k k') as [->|]; [|auto]. exfalso. apply N1. apply in_map_iff. exists (k', v). auto.
Qed.

Lemma weight_dset d k v k' : weight (dset d k v) k' = if keq k' k then v else weight d k'.
Proof.
  induction d as [|[k0 v0] d IH]; cbn [ModelFrankWolfe.dset].
  - rewrite weight_cons. reflexivity.
  - destruct (rep_eqb_spec k k0) as [->|Hn]; rewrite !weight_cons.
    + destruct (keq k' k0); reflexivity.
    + rewrite IH. destruct (keq k' k0) as [->|]; [destruct (keq k0 k); congruence|reflexivity].
Qed.
Lemma keys_dset d k v k' : In k' (map fst (dset d k v)) <-> k' = k \/ In k' (map fst d).
Proof.
  induction d as [|[k0 v0] d IH]; cbn [ModelFrankWolfe.dset map fst In].
  - intuition.
  - destruct (rep_eqb_spec k k0) as [->|Hn]; cbn [map fst In].
    + intuition.
    + rewrite IH. intuition.
Qed.
Lemma nodup_dset d k v : NoDup (map fst d) -> NoDup (map fst (dset d k v)).
Proof.
  induction d as [|[k0 v0] d IH]; cbn [ModelFrankWolfe.dset map fst]; intros Hn.
  - repeat constructor. intros [].
  - inversion Hn as [|? ? N1 N2]; subst. destruct (rep_eqb_spec k k0) as [->|Hne]; cbn [map fst]; [constructor; assumption|].
    constructor; [|auto]. rewrite keys_dset. intros [E|E]; [congruence|auto].
Qed.
Lemma S_dset phi d k v : NoDup (map fst d) -> S phi (dset d k v) = S phi d + (v - weight d k) * phi k.
Proof.
  induction d as [|[k0 v0] d IH]; intros Hn; cbn [ModelFrankWolfe.dset S].
  - cbn [weight]. lra.
  - inversion Hn as [|? ? N1 N2]; subst. rewrite weight_cons. destruct (rep_eqb_spec k k0) as [->|Hne]; cbn [S].
    + destruct (keq k0 k0); [lra|congruence].
    + rewrite IH by assumption. destruct (keq k k0); [congruence|lra].
Qed.
Lemma weight_ddel d k k' : NoDup (map fst d) -> weight (ddel d k) k' = if keq k' k then 0 else weight d k'.
Proof.
  induction d as [|[k0 v0] d IH]; intros Hn; cbn [ModelFrankWolfe.ddel].
  - destruct (keq k' k); reflexivity.
  - inversion Hn as [|? ? N1 N2]; subst. destruct (rep_eqb_spec k k0) as [->|Hne].
    + rewrite weight_cons. destruct (keq k' k0) as [->|]; [apply weight_notin; assumption|reflexivity].
    + rewrite !weight_cons, IH by assumption. destruct (keq k' k0) as [->|]; [destruct (keq k0 k); congruence|reflexivity].
Qed.
Lemma keys_ddel d k k' : In k' (map fst (ddel d k)) -> In k' (map fst d).
Proof.
  induction d as [|[k0 v0] d IH]; cbn [ModelFrankWolfe.ddel map fst In]; [auto|].
  destruct (rep_eqb_spec k k0); cbn [map fst In]; intuition.
Qed.
Lemma nodup_ddel d k : NoDup (map fst d) -> NoDup (map fst (ddel d k)).
Proof.
  induction d as [|[k0 v0] d IH]; cbn [ModelFrankWolfe.ddel map fst]; intros Hn; [exact Hn|].
  inversion Hn as [|? ? N1 N2]; subst. destruct (rep_eqb_spec k k0); [assumption|]. cbn [map fst].
  constructor; [|auto]. intros Hin. apply N1. eapply keys_ddel; exact Hin.
Qed.
Lemma S_ddel phi d k : NoDup (map fst d) -> S phi (ddel d k) = S phi d - weight d k * phi k.
Proof.
  induction d as [|[k0 v0] d IH]; intros Hn; cbn [ModelFrankWolfe.ddel S].
  - cbn [weight]. lra.
  - inversion Hn as [|? ? N1 N2]; subst. rewrite weight_cons. destruct (rep_eqb_spec k k0) as [->|Hne]; cbn [S].
    + destruct (keq k0 k0); [lra|congruence].
    + rewrite IH by assumption. destruct (keq k k0); [congruence|lra].
Qed.

(** reading through the defaultdict *)
Definition same (d d' : list (key * R)) (k0 : key) : Prop :=
  NoDup (map fst d') /\ (forall k, weight d' k = weight d k) /\ (forall phi, S phi d' = S phi d) /\
  (forall k, In k (map fst d') <-> k = k0 \/ In k (map fst d)).
Lemma dget_spec d k : NoDup (map fst d) ->
  exists d', dget d k = (weight d k, d') /\ same d d' k.
Proof.
  intros Hn. unfold ModelFrankWolfe.dget.
  destruct (dfind_weight d k) as [(v & A & B & C)|(A & B & C)]; rewrite A.
  - exists d. split; [rewrite B; reflexivity|]. split; [exact Hn|]. split; [auto|]. split; [auto|].
    intros k'. split; [auto|]. intros [->|H]; [|exact H]. apply in_map_iff. exists (k, v). auto.
  - exists (dset d k 0). split; [rewrite B; reflexivity|]. split; [apply nodup_dset, Hn|]. split.
    { intros k'. rewrite weight_dset. destruct (keq k' k) as [->|]; [symmetry; exact B|reflexivity]. }
    split; [|intros k'; apply keys_dset].
    intros phi. rewrite S_dset by exact Hn. rewrite B. lra.
Qed.

Lemma update_spec d (fw away : key) (step : R) : NoDup (map fst d) ->
  let w := weight d away + (if keq away fw then step else 0) - step in
  (w < 0 -> @update_active_set RN d fw away step = Err ValueError) /\
  (0 <= w -> exists d', @update_active_set RN d fw away step = Ok d' /\ NoDup (map fst d') /\
     (forall k, weight d' k = weight d k + (if keq k fw then step else 0) - (if keq k away then step else 0)) /\
     (forall phi, S phi d' = S phi d + step * (phi fw - phi away)) /\
     (forall k, In k (map fst d') <-> k = fw \/ k = away \/ In k (map fst d))).
Proof.
  intros Hn w. unfold update_active_set.
  destruct (dget_spec d away Hn) as (d1 & E1 & N1 & W1 & S1 & K1). rewrite E1. cbn [fst snd].
  destruct (dget_spec d1 fw N1) as (d2 & E2 & N2 & W2 & S2 & K2). rewrite E2.
  change (nadd RN (weight d1 fw) step) with (weight d1 fw + step).
  set (d3 := dset d2 fw (weight d1 fw + step)).
  assert (N3 : NoDup (map fst d3)) by (apply nodup_dset; exact N2).
  assert (W3 : forall k, weight d3 k = weight d k + (if keq k fw then step else 0)).
  { intros k. unfold d3. rewrite weight_dset. destruct (keq k fw) as [->|]; rewrite ?W2, ?W1; lra. }
  assert (S3 : forall phi, S phi d3 = S phi d + step * phi fw).
  { intros phi. unfold d3. rewrite S_dset, S2, S1, W2 by exact N2. rewrite !W1. lra. }
  destruct (dget_spec d3 away N3) as (d4 & E4 & N4 & W4 & S4 & K4). rewrite E4.
  change (nsub RN (weight d3 away) step) with (weight d3 away - step).
  set (d5 := dset d4 away (weight d3 away - step)).
  assert (N5 : NoDup (map fst d5)) by (apply nodup_dset; exact N4).
  assert (W5 : forall k, weight d5 k = weight d k + (if keq k fw then step else 0) - (if keq k away then step else 0)).
  { intros k. unfold d5. rewrite weight_dset. destruct (keq k away) as [->|]; rewrite ?W4, ?W3; lra. }
  assert (S5 : forall phi, S phi d5 = S phi d + step * (phi fw - phi away)).
  { intros phi. unfold d5. rewrite S_dset, S4, S3, W4 by exact N4. rewrite !W3. lra. }
  assert (K5 : forall k, In k (map fst d5) <-> k = fw \/ k = away \/ In k (map fst d)).
  { intros k. unfold d5. rewrite keys_dset, K4. unfold d3. rewrite keys_dset, K2, K1. intuition. }
  destruct (dget_spec d5 away N5) as (d6 & E6 & N6 & W6 & S6 & K6). rewrite E6.
  assert (Hw : weight d5 away = w). { rewrite W5. unfold w. destruct (keq away away); [reflexivity|congruence]. }
  rewrite Hw. clearbody w.
  assert (K6' : forall k, In k (map fst d6) <-> k = fw \/ k = away \/ In k (map fst d)).
  { intros k. rewrite K6, K5. intuition. }
  change (neqb RN w n0) with (Reqb w 0). destruct (Reqb_spec w 0) as [Hz|Hz].
  - set (d7 := ddel d6 away). assert (N7 : NoDup (map fst d7)) by (apply nodup_ddel; exact N6).
    destruct (dget_spec d7 away N7) as (d8 & E8 & N8 & W8 & S8 & K8). rewrite E8.
    assert (Hw7 : weight d7 away = 0). { unfold d7. rewrite weight_ddel by exact N6. destruct (keq away away); [reflexivity|congruence]. }
    change (nltb RN (weight d7 away) n0) with (Rltb (weight d7 away) 0). rewrite Hw7, Rltb_false by lra.
    split; [lra|]. intros _. exists d8. split; [reflexivity|]. split; [exact N8|]. split; [|split].
    + intros k. rewrite W8. unfold d7. rewrite weight_ddel by exact N6.
      destruct (keq k away) as [->|Hne].
      * pose proof (W5 away) as W5a. destruct (keq away away); [|congruence]. lra.
      * rewrite W6, W5. destruct (keq k away); [congruence|lra].
    + intros phi. rewrite S8. unfold d7. rewrite S_ddel, S6, S5, W6, Hw by exact N6. rewrite Hz. lra.
    + intros k. rewrite K8. split.
      * intros [->|H]; [auto|]. apply keys_ddel in H. apply K6'; exact H.
      * intros H. destruct (keq k away) as [->|Hne]; [left; reflexivity|]. right.
        (* a key other than the deleted one is kept *)
        assert (Hk : forall l, In k (map fst l) -> In k (map fst (ddel l away))).
        { clear - Hne. induction l as [|[k0 v0] l IH]; cbn [map fst In ModelFrankWolfe.ddel]; [auto|].
          intros Hin. destruct (rep_eqb_spec away k0) as [->|]; [destruct Hin; [congruence|assumption]|].
          cbn [map fst In]. destruct Hin; [left; assumption|right; auto]. }
        apply Hk, K6', H.
  - destruct (dget_spec d6 away N6) as (d8 & E8 & N8 & W8 & S8 & K8). rewrite E8.
    change (nltb RN (weight d6 away) n0) with (Rltb (weight d6 away) 0).
    rewrite W6, Hw. destruct (Rltb_spec w 0) as [Hlt|Hge].
    + split; [reflexivity|lra].
    + split; [lra|]. intros _. exists d8. split; [reflexivity|]. split; [exact N8|]. split; [|split].
      * intros k. rewrite W8, W6, W5. reflexivity.
      * intros phi. rewrite S8, S6, S5. reflexivity.
      * intros k. rewrite K8, K6'. intuition.
Qed.

(** ** From valuations to the vertex decomposition *)
Lemma Rsum_S d : Rsum (map snd d) = S (fun _ => 1) d.
Proof. induction d as [|[k v] d IH]; cbn [map snd Rsum S]; [reflexivity|]. rewrite IH. lra. Qed.
Lemma wsum_S n alpha d i : (i < n)%nat ->
  nth i (wsum n alpha d) 0 = S (fun k => nth i (vertex n (alpha * fst k) (snd k)) 0) d.
Proof.
  intros Hi. induction d as [|[k v] d IH]; cbn [wsum S]; [apply nth_zeros|].
  rewrite nth_lin by (rewrite vertex_length, wsum_length; reflexivity). rewrite IH. lra.
Qed.

Lemma update_decomposition n alpha (d : list (key * R)) (x : list R) (fw away : key) (step : R) d' :
  convex_decomposition n alpha d x -> 0 <= step ->
  (snd fw < n)%nat -> Rabs (fst fw) <= 1 -> (snd away < n)%nat -> Rabs (fst away) <= 1 ->
  @update_active_set RN d fw away step = Ok d' ->
  convex_decomposition n alpha d'
    (vplus x (smul step (vminus (vertex n (alpha * fst fw) (snd fw)) (vertex n (alpha * fst away) (snd away))))).
Proof.
  intros (Hn & Hf & Hs & Hx) Hst F1 F2 A1 A2 E.
  destruct (update_spec d fw away step Hn) as [U1 U2].
  set (w := weight d away + (if keq away fw then step else 0) - step) in *.
  destruct (Rlt_le_dec w 0) as [Hlt|Hge]; [rewrite (U1 Hlt) in E; discriminate E|].
  destruct (U2 Hge) as (d'' & E' & N' & W' & S' & K'). rewrite E in E'. injection E' as <-.
  split; [exact N'|]. split; [|split].
  - apply Forall_forall. intros [k v] Hin. cbn [fst snd].
    pose proof (weight_in _ _ _ N' Hin) as Hv.
    assert (Hold : forall k, In k (map fst d) -> (snd k < n)%nat /\ Rabs (fst k) <= 1).
    { intros k0 Hk. apply in_map_iff in Hk as ([k1 v1] & <- & Hk). rewrite Forall_forall in Hf.
      apply Hf in Hk. cbn [fst snd] in *. tauto. }
    assert (Hpos : forall k0, 0 <= weight d k0).
    { intros k0. destruct (dfind_weight d k0) as [(v0 & _ & B & C)|(_ & B & _)]; rewrite B; [|lra].
      rewrite Forall_forall in Hf. apply Hf in C. cbn [snd] in C. tauto. }
    assert (Hink : In k (map fst d')) by (apply in_map_iff; exists (k, v); auto).
    apply K' in Hink.
    split.
    + rewrite <- Hv, W'. destruct (keq k away) as [->|Hne].
      * fold w. exact Hge.
      * pose proof (Hpos k). destruct (keq k fw); lra.
    + destruct Hink as [->|[->|Hink]]; auto.
  - rewrite Rsum_S, S', <- Rsum_S, Hs. lra.
  - apply list_ext with (d := 0).
    + rewrite wsum_length. rewrite Hx. unfold vplus. rewrite lin_length, smul_length, wsum_length. unfold vminus.
      rewrite lin_length, !vertex_length. lia.
    + intros i Hi.
      assert (Hin : (i < n)%nat).
      { unfold vplus in Hi. rewrite lin_length in Hi. rewrite Hx, wsum_length in Hi. lia. }
      assert (Hl : length x = n) by (rewrite Hx; apply wsum_length).
      rewrite nth_vplus by (rewrite smul_length; unfold vminus; rewrite lin_length, !vertex_length; lia).
      rewrite nth_smul, nth_vminus by (rewrite !vertex_length; reflexivity).
      rewrite wsum_S by exact Hin. rewrite S'. rewrite Hx, wsum_S by exact Hin. reflexivity.
Qed.

Lemma decomposition_ball n alpha d x : 0 <= alpha -> convex_decomposition n alpha d x -> l1_ball alpha x.
Proof.
  intros Ha (_ & Hf & Hs & ->). unfold l1_ball.
  assert (H : l1 (wsum n alpha d) <= alpha * Rsum (map snd d)).
  { clear Hs. induction d as [|[k v] d IH]; cbn [wsum map snd Rsum].
    - rewrite Rmult_0_r. apply Req_le. unfold zeros. clear. induction n as [|n IHn]; cbn [repeat l1]; [reflexivity|]. rewrite Rabs_R0, IHn. lra.
    - pose proof (Forall_inv Hf) as (F1 & F2 & F3). cbn [fst snd] in *. specialize (IH (Forall_inv_tail Hf)).
      assert (Htri : forall u v0 a b, length u = length v0 -> l1 (lin a u b v0) <= Rabs a * l1 u + Rabs b * l1 v0).
      { clear. induction u as [|s u IH]; intros [|t v0] a b Hl; simpl in *; try lia; [lra|].
        specialize (IH v0 a b ltac:(lia)). pose proof (Rabs_triang (a * s) (b * t)). rewrite !Rabs_mult in H. lra. }
      eapply Rle_trans; [apply Htri; rewrite vertex_length, wsum_length; reflexivity|].
      rewrite Rabs_R1, (Rabs_right v) by lra.
      assert (l1 (vertex n (alpha * fst k) (snd k)) <= alpha).
      { eapply Rle_trans; [apply l1_vertex|]. rewrite Rabs_mult, (Rabs_right alpha) by lra. pose proof (Rabs_pos (fst k)). nra. }
      assert (v * l1 (vertex n (alpha * fst k) (snd k)) <= v * alpha) by (apply Rmult_le_compat_l; assumption).
      lra. }
  rewrite Hs in H. lra.
Qed.
