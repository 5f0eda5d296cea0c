(** * Frank-Wolfe on the l1 ball in binary64: how far rounding can carry the iterate outside *)
From Coq Require Import ZArith Reals Lra Lia Bool List.
From Coq Require Import Floats.SpecFloat.
From Flocq Require Import Core.Core.
From Verif Require Import Num Vec Spec RVec ModelConstraint ModelFrankWolfe FrankWolfeFacts FloatBase FloatSum FloatPair FloatPair2 FloatSimplex2.
Import ListNotations.
Local Open Scope R_scope.

Definition ftop : R := bpow radix2 1000.
Lemma ftop_ge1 : 1 <= ftop.
Proof. unfold ftop. change 1 with (bpow radix2 0). apply bpow_le. lia. Qed.
Lemma ftop_fits : 16 * ftop <= bpow radix2 1023.
Proof.
  unfold ftop. replace 16 with (bpow radix2 4) by (simpl; lra). rewrite <- bpow_plus. apply bpow_le. lia.
Qed.
Lemma uro_small : 0 < uro <= / 1000.
Proof. rewrite uro_val. split; [apply Rinv_0_lt_compat; lra|apply Rinv_le_contravar; lra]. Qed.
Lemma eta_small : 0 < eta <= 1.
Proof. split; [exact eta_pos|]. unfold eta. change 1 with (bpow radix2 0). apply bpow_le. lia. Qed.
Local Opaque ftop uro eta.

(** the l1 norm of the values *)
Definition l1f (x : list F64) : R := Rsum (fabs x).
Lemma l1f_pos x : 0 <= l1f x.
Proof.
  induction x as [|a x IH]; [apply Rle_refl|]. change (l1f (a :: x)) with (Rabs (fv a) + l1f x). pose proof (Rabs_pos (fv a)). lra.
Qed.
Lemma l1f_nth x i : Rabs (fv (nth i x n0)) <= l1f x.
Proof.
  revert i. induction x as [|a x IH]; intros i.
  - destruct i; cbn [nth]; rewrite fv_0, Rabs_R0; apply l1f_pos.
  - change (l1f (a :: x)) with (Rabs (fv a) + l1f x). pose proof (l1f_pos x). pose proof (Rabs_pos (fv a)).
    destruct i; cbn [nth]; [lra|]. specialize (IH i). lra.
Qed.

(** ** One coordinate: x + g d *)
Lemma coord_err (x g d : F64) : fin x -> fin g -> fin d -> 0 <= fv g <= 1 -> Rabs (fv x) <= ftop -> Rabs (fv d) <= 4 * ftop ->
  fin (nadd F64 x (nmul F64 g d)) /\
  Rabs (fv (nadd F64 x (nmul F64 g d))) <= (1 + uro) * (Rabs (fv x + fv g * fv d) + uro * (fv g * Rabs (fv d)) + eta).
Proof.
  intros Hx Hg Hd Hg01 Bx Bd. pose proof ftop_ge1. pose proof ftop_fits. pose proof uro_small. pose proof eta_small.
  assert (A : Rabs (fv g * fv d) = fv g * Rabs (fv d)) by (rewrite Rabs_mult, (Rabs_pos_eq (fv g)) by lra; reflexivity).
  assert (A2 : fv g * Rabs (fv d) <= 4 * ftop).
  { apply Rle_trans with (1 * Rabs (fv d)); [apply Rmult_le_compat_r; [apply Rabs_pos|lra]|lra]. }
  assert (A0 : 0 <= fv g * Rabs (fv d)) by (apply Rmult_le_pos; [lra|apply Rabs_pos]).
  destruct (mul_fin g d Hg Hd) as [Hp Ep]. { apply rnd_fits. rewrite A. lra. }
  pose proof (rnd_err (fv g * fv d)) as Er. rewrite A in Er. rewrite <- Ep in Er. set (p := nmul F64 g d) in *.
  assert (U : uro * (fv g * Rabs (fv d)) <= 4 * ftop).
  { apply Rle_trans with (1 * (fv g * Rabs (fv d))); [apply Rmult_le_compat_r; lra|lra]. }
  assert (Bs : Rabs (fv x + fv p) <= Rabs (fv x + fv g * fv d) + uro * (fv g * Rabs (fv d)) + eta).
  { replace (fv x + fv p) with ((fv x + fv g * fv d) + (fv p - fv g * fv d)) by ring.
    eapply Rle_trans; [apply Rabs_triang|]. lra. }
  assert (B2 : Rabs (fv x + fv g * fv d) <= 5 * ftop).
  { eapply Rle_trans; [apply Rabs_triang|]. rewrite A. lra. }
  destruct (add_fin x p Hx Hp) as [Hs Es]. { apply rnd_fits. lra. }
  split; [exact Hs|]. rewrite Es.
  pose proof (rnd_add_err (fv x) (fv p) (fin_repr _ Hx) (fin_repr _ Hp)) as E2.
  apply Rle_trans with ((1 + uro) * Rabs (fv x + fv p)).
  - replace (rnd (fv x + fv p)) with ((fv x + fv p) + (rnd (fv x + fv p) - (fv x + fv p))) by ring.
    eapply Rle_trans; [apply Rabs_triang|]. lra.
  - apply Rmult_le_compat_l; [lra|exact Bs].
Qed.

(** a coordinate other than the vertex: d = -x *)
Lemma coord_other (x g : F64) : fin x -> fin g -> 0 <= fv g <= 1 -> Rabs (fv x) <= ftop ->
  fin (nadd F64 x (nmul F64 g (nopp F64 x))) /\
  Rabs (fv (nadd F64 x (nmul F64 g (nopp F64 x)))) <= (1 + uro) * ((1 - fv g + uro) * Rabs (fv x) + eta).
Proof.
  intros Hx Hg H01 Bx. destruct (opp_fin x Hx) as [Hd Ed]. pose proof ftop_ge1. pose proof uro_small.
  destruct (coord_err x g (nopp F64 x) Hx Hg Hd H01 Bx) as [A B]. { rewrite Ed, Rabs_Ropp. lra. }
  split; [exact A|]. eapply Rle_trans; [exact B|]. apply Rmult_le_compat_l; [lra|]. rewrite Ed, Rabs_Ropp.
  replace (fv x + fv g * - fv x) with ((1 - fv g) * fv x) by ring. rewrite Rabs_mult, (Rabs_pos_eq (1 - fv g)) by lra.
  pose proof (Rabs_pos (fv x)).
  assert (fv g * Rabs (fv x) <= Rabs (fv x)) by (apply Rle_trans with (1 * Rabs (fv x)); [apply Rmult_le_compat_r|]; lra).
  assert (uro * (fv g * Rabs (fv x)) <= uro * Rabs (fv x)) by (apply Rmult_le_compat_l; lra). lra.
Qed.

(** the coordinate of the vertex: d = fl(-x + t), |t| <= a *)
Lemma vertex_alg u g X a t D B : 0 < u <= / 1000 -> 0 <= g <= 1 -> Rabs t <= a -> Rabs X <= B -> a <= B -> 0 <= a ->
  Rabs (D - (- X + t)) <= u * Rabs (- X + t) ->
  Rabs (X + g * D) + u * (g * Rabs D) <= (1 - g + u) * Rabs X + (g * a + 5 * u * B) - u * Rabs X.
Proof.
  intros Hu Hg Ht HX Ha Ha0 HD. assert (S : Rabs (- X + t) <= 2 * B).
  { eapply Rle_trans; [apply Rabs_triang|]. rewrite Rabs_Ropp. lra. }
  assert (S1 : u * Rabs (- X + t) <= u * (2 * B)) by (apply Rmult_le_compat_l; lra).
  pose proof (Rabs_pos X). pose proof (Rabs_pos t).
  assert (HD2 : Rabs D <= 3 * B).
  { replace D with ((- X + t) + (D - (- X + t))) by ring. eapply Rle_trans; [apply Rabs_triang|].
    assert (u * (2 * B) <= B) by (apply Rle_trans with (/1000 * (2 * B)); [apply Rmult_le_compat_r; lra|lra]). lra. }
  assert (E1 : Rabs (X + g * D) <= (1 - g) * Rabs X + g * a + g * (u * (2 * B))).
  { replace (X + g * D) with (((1 - g) * X + g * t) + g * (D - (- X + t))) by ring.
    eapply Rle_trans; [apply Rabs_triang|]. apply Rplus_le_compat.
    - eapply Rle_trans; [apply Rabs_triang|]. rewrite !Rabs_mult, (Rabs_pos_eq (1 - g)), (Rabs_pos_eq g) by lra.
      assert (g * Rabs t <= g * a) by (apply Rmult_le_compat_l; lra). lra.
    - rewrite Rabs_mult, (Rabs_pos_eq g) by lra. apply Rmult_le_compat_l; lra. }
  assert (E2 : g * (u * (2 * B)) <= u * (2 * B)).
  { apply Rle_trans with (1 * (u * (2 * B))); [apply Rmult_le_compat_r; [apply Rmult_le_pos; lra|lra]|lra]. }
  assert (E3 : u * (g * Rabs D) <= u * (3 * B)).
  { apply Rmult_le_compat_l; [lra|]. apply Rle_trans with (1 * Rabs D); [apply Rmult_le_compat_r; [apply Rabs_pos|lra]|lra]. }
  lra.
Qed.
Lemma coord_vertex (x g t : F64) (a B : R) : fin x -> fin g -> fin t -> 0 <= fv g <= 1 -> Rabs (fv x) <= B -> B <= ftop ->
  Rabs (fv t) <= a -> a <= B ->
  let d := nadd F64 (nopp F64 x) t in
  fin (nadd F64 x (nmul F64 g d)) /\
  Rabs (fv (nadd F64 x (nmul F64 g d))) <= (1 + uro) * ((1 - fv g + uro) * Rabs (fv x) + eta) + (1 + uro) * (fv g * a + 5 * uro * B).
Proof.
  intros Hx Hg Htt H01 Bx BT Ht Ha d. destruct (opp_fin x Hx) as [Ho Eo]. pose proof ftop_ge1. pose proof ftop_fits. pose proof uro_small as Hu.
  pose proof (Rabs_pos (fv t)). pose proof (Rabs_pos (fv x)).
  assert (S : Rabs (- fv x + fv t) <= 2 * ftop). { eapply Rle_trans; [apply Rabs_triang|]. rewrite Rabs_Ropp. lra. }
  destruct (add_fin (nopp F64 x) t Ho Htt) as [Hd Ed]. { apply rnd_fits. rewrite Eo. lra. }
  fold d in Hd, Ed. rewrite Eo in Ed.
  pose proof (rnd_add_err (- fv x) (fv t) (repr_opp _ (fin_repr _ Hx)) (fin_repr _ Htt)) as Er. rewrite <- Ed in Er.
  assert (Bd : Rabs (fv d) <= 4 * ftop).
  { replace (fv d) with ((- fv x + fv t) + (fv d - (- fv x + fv t))) by ring. eapply Rle_trans; [apply Rabs_triang|].
    assert (uro * Rabs (- fv x + fv t) <= 1 * Rabs (- fv x + fv t)) by (apply Rmult_le_compat_r; [apply Rabs_pos|lra]). lra. }
  destruct (coord_err x g d Hx Hg Hd H01 ltac:(lra) Bd) as [A C]. split; [exact A|]. eapply Rle_trans; [exact C|].
  rewrite <- Rmult_plus_distr_l. apply Rmult_le_compat_l; [lra|].
  pose proof (vertex_alg uro (fv g) (fv x) a (fv t) (fv d) B Hu H01 Ht Bx Ha ltac:(lra) Er).
  assert (0 <= uro * Rabs (fv x)) by (apply Rmult_le_pos; lra). lra.
Qed.

(** ** The whole vector *)
Definition fw_next (x : list F64) (g : F64) (d : list F64) : list F64 := vadd x (vscale g d).
Lemma next_other (g : F64) : fin g -> 0 <= fv g <= 1 -> forall x, Forall fin x -> l1f x <= ftop ->
  Forall fin (fw_next x g (vopp x)) /\ l1f (fw_next x g (vopp x)) <= (1 + uro) * ((1 - fv g + uro) * l1f x + INR (length x) * eta).
Proof.
  intros Hg H01. induction x as [|a x IH]; intros Hx HB.
  - split; [constructor|]. cbn [length INR]. change (l1f []) with 0. change (l1f (fw_next [] g (vopp []))) with 0. pose proof uro_small. lra.
  - change (l1f (a :: x)) with (Rabs (fv a) + l1f x) in *. pose proof (l1f_pos x). pose proof (Rabs_pos (fv a)).
    change (fw_next (a :: x) g (vopp (a :: x))) with (nadd F64 a (nmul F64 g (nopp F64 a)) :: fw_next x g (vopp x)).
    destruct (IH (Forall_inv_tail Hx) ltac:(lra)) as [I1 I2]. destruct (coord_other a g (Forall_inv Hx) Hg H01 ltac:(lra)) as [C1 C2].
    split; [constructor; assumption|]. change (length (a :: x)) with (Datatypes.S (length x)). rewrite S_INR.
    change (l1f (nadd F64 a (nmul F64 g (nopp F64 a)) :: fw_next x g (vopp x))) with (Rabs (fv (nadd F64 a (nmul F64 g (nopp F64 a)))) + l1f (fw_next x g (vopp x))).
    lra.
Qed.
Lemma next_vertex (g t : F64) (a B : R) : fin g -> fin t -> 0 <= fv g <= 1 -> Rabs (fv t) <= a -> a <= B -> B <= ftop ->
  forall x i, (i < length x)%nat -> Forall fin x -> l1f x <= B ->
  let y := fw_next x g (upd (vopp x) i (nadd F64 (nth i (vopp x) n0) t)) in
  Forall fin y /\ l1f y <= (1 + uro) * ((1 - fv g + uro) * l1f x + INR (length x) * eta) + (1 + uro) * (fv g * a + 5 * uro * B).
Proof.
  intros Hg Ht H01 Hta Ha HB. induction x as [|b x IH]; intros i Hi Hx HN; [cbn in Hi; lia|].
  change (l1f (b :: x)) with (Rabs (fv b) + l1f x) in *. pose proof (l1f_pos x). pose proof (Rabs_pos (fv b)).
  change (length (b :: x)) with (Datatypes.S (length x)) in *. rewrite S_INR.
  destruct i as [|i]; cbv zeta.
  - change (fw_next (b :: x) g (upd (vopp (b :: x)) 0 (nadd F64 (nth 0 (vopp (b :: x)) n0) t)))
      with (nadd F64 b (nmul F64 g (nadd F64 (nopp F64 b) t)) :: fw_next x g (vopp x)).
    destruct (next_other g Hg H01 x (Forall_inv_tail Hx) ltac:(lra)) as [I1 I2].
    destruct (coord_vertex b g t a B (Forall_inv Hx) Hg Ht H01 ltac:(lra) HB Hta Ha) as [C1 C2]. cbv zeta in C1, C2.
    split; [constructor; assumption|].
    match goal with |- l1f (?p :: ?q) <= _ => change (l1f (p :: q)) with (Rabs (fv p) + l1f q) end. lra.
  - change (fw_next (b :: x) g (upd (vopp (b :: x)) (Datatypes.S i) (nadd F64 (nth (Datatypes.S i) (vopp (b :: x)) n0) t)))
      with (nadd F64 b (nmul F64 g (nopp F64 b)) :: fw_next x g (upd (vopp x) i (nadd F64 (nth i (vopp x) n0) t))).
    destruct (IH i ltac:(lia) (Forall_inv_tail Hx) ltac:(lra)) as [I1 I2]. cbv zeta in I1, I2.
    destruct (coord_other b g (Forall_inv Hx) Hg H01 ltac:(lra)) as [C1 C2].
    split; [constructor; assumption|].
    match goal with |- l1f (?p :: ?q) <= _ => change (l1f (p :: q)) with (Rabs (fv p) + l1f q) end. lra.
Qed.

(** ** One iteration *)
Lemma step_alg u g N a B ne : 0 < u <= / 1000 -> 0 <= g <= 1 -> 0 <= N <= B -> 0 <= a <= B -> 0 <= ne ->
  (1 + u) * ((1 - g + u) * N + ne) + (1 + u) * (g * a + 5 * u * B) <= (1 + 8 * u) * B + 2 * ne.
Proof.
  intros Hu Hg HN Ha Hne.
  assert (E1 : (1 - g) * N + g * a <= B).
  { assert ((1 - g) * N <= (1 - g) * B) by (apply Rmult_le_compat_l; lra). assert (g * a <= g * B) by (apply Rmult_le_compat_l; lra). lra. }
  assert (E2 : u * N <= u * B) by (apply Rmult_le_compat_l; lra).
  apply Rle_trans with ((1 + u) * (B + 6 * u * B + ne)).
  - rewrite <- Rmult_plus_distr_l. apply Rmult_le_compat_l; lra.
  - assert (u * ne <= 1 * ne) by (apply Rmult_le_compat_r; lra).
    assert (E3 : u * (6 * u * B) <= u * B).
    { apply Rmult_le_compat_l; [lra|]. apply Rle_trans with (1 * B); [apply Rmult_le_compat_r; lra|lra]. }
    lra.
Qed.
(** the bound after k iterations: u = 2^-53, n coordinates, radius a *)
Definition drift (n : nat) (a : R) (k : nat) : R := (1 + 8 * uro) ^ k * (a + INR k * (INR n * (2 * eta))).
Lemma drift_0 n a : drift n a 0 = a.
Proof. unfold drift. cbn. ring. Qed.
Lemma drift_pow k : 1 <= (1 + 8 * uro) ^ k.
Proof. apply pow_R1_Rle. pose proof uro_small. lra. Qed.
Lemma drift_S n a k : 0 <= a -> (1 + 8 * uro) * drift n a k + 2 * (INR n * eta) <= drift n a (Datatypes.S k).
Proof.
  intros Ha. unfold drift. rewrite S_INR, <- tech_pow_Rmult. pose proof (drift_pow k). pose proof uro_small. pose proof eta_small.
  set (q := (1 + 8 * uro) ^ k) in *. pose proof (pos_INR n). pose proof (pos_INR k).
  assert (0 <= INR n * eta) by (apply Rmult_le_pos; lra).
  assert (1 <= (1 + 8 * uro) * q) by (replace 1 with (1 * 1) by ring; apply Rmult_le_compat; lra).
  assert (1 * (2 * (INR n * eta)) <= (1 + 8 * uro) * q * (2 * (INR n * eta))) by (apply Rmult_le_compat_r; lra).
  replace ((1 + 8 * uro) * q * (a + (INR k + 1) * (INR n * (2 * eta))))
    with ((1 + 8 * uro) * (q * (a + INR k * (INR n * (2 * eta)))) + (1 + 8 * uro) * q * (2 * (INR n * eta))) by ring. lra.
Qed.
Lemma drift_ge n a k : 0 <= a -> a <= drift n a k.
Proof.
  intros Ha. unfold drift. pose proof (drift_pow k). pose proof (pos_INR n). pose proof (pos_INR k). pose proof eta_small.
  assert (0 <= INR k * (INR n * (2 * eta))) by (apply Rmult_le_pos; [lra|apply Rmult_le_pos; lra]).
  apply Rle_trans with (1 * (a + INR k * (INR n * (2 * eta)))); [lra|]. apply Rmult_le_compat_r; lra.
Qed.
Lemma drift_mono n a k m : 0 <= a -> (k <= m)%nat -> drift n a k <= drift n a m.
Proof.
  intros Ha H. induction H as [|m H IH]; [lra|]. eapply Rle_trans; [exact IH|].
  pose proof (drift_S n a m Ha). pose proof (drift_ge n a m Ha). pose proof uro_small. pose proof eta_small. pose proof (pos_INR n).
  assert (0 <= INR n * eta) by (apply Rmult_le_pos; lra).
  assert (0 <= uro * drift n a m) by (apply Rmult_le_pos; lra). lra.
Qed.

Lemma sign_abs (alpha s : F64) : fin alpha -> 0 <= fv alpha <= ftop -> s = n1 \/ s = nopp F64 n1 \/ s = n0 ->
  fin (nmul F64 alpha s) /\ Rabs (fv (nmul F64 alpha s)) <= fv alpha.
Proof.
  intros Ha H Hs. pose proof ftop_fits. pose proof ftop_ge1.
  assert (X : forall q : F64, fin q -> fv q = 1 \/ fv q = -1 \/ fv q = 0 -> fin (nmul F64 alpha q) /\ Rabs (fv (nmul F64 alpha q)) <= fv alpha).
  { intros q Hq Eq.
    assert (R1 : rnd (fv alpha * fv q) = fv alpha * fv q).
    { apply rnd_repr. destruct Eq as [->|[->| ->]].
      - rewrite Rmult_1_r. apply fin_repr; exact Ha.
      - replace (fv alpha * -1) with (- fv alpha) by ring. apply repr_opp, fin_repr, Ha.
      - rewrite Rmult_0_r. exact repr_0. }
    assert (R2 : Rabs (fv alpha * fv q) <= fv alpha).
    { rewrite Rabs_mult, (Rabs_pos_eq (fv alpha)) by lra. assert (Rabs (fv q) <= 1).
      { destruct Eq as [->|[->| ->]]; [rewrite Rabs_R1|rewrite Rabs_left by lra|rewrite Rabs_R0]; lra. }
      apply Rle_trans with (fv alpha * 1); [apply Rmult_le_compat_l; lra|lra]. }
    destruct (mul_fin alpha q Ha Hq) as [A B]. { rewrite R1. apply Rle_lt_trans with (1 := R2). unfold fbig.
      apply Rle_lt_trans with (bpow radix2 1023); [lra|apply bpow_lt; lia]. }
    split; [exact A|]. rewrite B, R1. exact R2. }
  destruct Hs as [->|[->| ->]].
  - apply X; [exact fin_1|left; exact fv_1].
  - destruct (opp_fin n1 fin_1) as [A B]. apply X; [exact A|]. right; left. rewrite B, fv_1. reflexivity.
  - apply X; [exact fin_0|]. right; right. exact fv_0.
Qed.

(** copt/constraint.py:95-128 followed by frank_wolfe.py:300 *)
Lemma lmo_step (n : nat) (alpha g : F64) (grad x : list F64) (k : nat) : (0 < n)%nat -> length grad = n -> length x = n ->
  num grad -> Forall fin x -> fin alpha -> 0 <= fv alpha -> fin g -> 0 <= fv g <= 1 ->
  l1f x <= drift n (fv alpha) k -> drift n (fv alpha) k <= ftop ->
  exists o, l1_lmo alpha (vopp grad) x = Ok o /\ length (lmo_dir o) = n /\
    Forall fin (fw_next x g (lmo_dir o)) /\ l1f (fw_next x g (lmo_dir o)) <= drift n (fv alpha) (Datatypes.S k).
Proof.
  intros Hn Hg Hx Ng Fx Fa Ha Fg H01 HN HT. unfold l1_lmo.
  assert (Lu : length (vopp grad) = n) by (unfold vopp; rewrite map_length; exact Hg).
  destruct (argmax_lt (vabs (vopp grad))) as (i & Ei & Hi). { unfold vabs. rewrite map_length, Lu. exact Hn. }
  unfold vabs in Hi. rewrite map_length, Lu in Hi. rewrite Ei. cbn [bind].
  rewrite (get_ok (vopp grad) i n0) by lia. cbn [bind].
  assert (Lx : length (vopp x) = n) by (unfold vopp; rewrite map_length; exact Hx).
  rewrite (get_ok (vopp x) i n0) by lia. cbn [bind]. rewrite set_ok by lia. cbn [bind].
  eexists. split; [reflexivity|]. cbn [lmo_dir]. split; [rewrite upd_length; exact Lx|].
  assert (Hs : nisnan (nth i (vopp grad) n0) = false).
  { unfold vopp. change (@n0 F64) with (nopp F64 (nopp F64 n0)). rewrite map_nth. rewrite nisnan_opp.
    exact (proj2 (proj1 (Forall_forall _ _) Ng _ (nth_In _ _ ltac:(rewrite Hg; exact Hi)))). }
  pose proof (drift_ge n (fv alpha) k Ha).
  destruct (sign_abs alpha _ Fa ltac:(lra) (nsign_key _ Hs)) as [Ft At].
  destruct (next_vertex g (nmul F64 alpha (nsign (nth i (vopp grad) n0))) (fv alpha) (drift n (fv alpha) k) Fg Ft H01 At ltac:(lra) HT x i ltac:(lia) Fx HN) as [A B].
  split; [exact A|]. eapply Rle_trans; [exact B|]. eapply Rle_trans; [|apply drift_S; exact Ha].
  pose proof uro_small. pose proof eta_small. pose proof (pos_INR n). pose proof (l1f_pos x). rewrite Hx.
  apply step_alg; [lra|lra|lra|lra|apply Rmult_le_pos; lra].
Qed.
