(** * The taut string over the reals: the hulls and the string *)
From Coq Require Import ZArith Bool List Lia Reals Lra.
From Verif Require Import Num Vec Spec RVec ModelPenalty ModelTv TvSafe.
Import ListNotations.
Local Open Scope R_scope.

Lemma dv_R (a : R) i j : ndiv RN a (nofZ RN (Z.of_nat i - Z.of_nat j)) = a / (INR i - INR j).
Proof. rn. rewrite minus_IZR, <- !INR_IZR_INZ. reflexivity. Qed.
Lemma INR_lt i j : (i < j)%nat -> 0 < INR j - INR i.
Proof. intros H. apply lt_INR in H. lra. Qed.
Lemma INR_le i j : (i <= j)%nat -> 0 <= INR j - INR i.
Proof. intros H. apply le_INR in H. lra. Qed.

Definition sgn (up : bool) : R := if up then -1 else 1.
Lemma sgn_cases up : sgn up = 1 \/ sgn up = -1.
Proof. destruct up; auto. Qed.
Lemma cmp_R up (a b : R) : cmp (K:=RN) up a b = true <-> sgn up * a <= sgn up * b.
Proof. unfold cmp, sgn. destruct up; rn; rewrite Rleb_iff; lra. Qed.
Lemma cmp_R_false up (a b : R) : cmp (K:=RN) up a b = false <-> sgn up * b < sgn up * a.
Proof. unfold cmp, sgn. destruct up; rn; [destruct (Rleb_spec b a)|destruct (Rleb_spec a b)]; split; intros; try lra; try congruence. Qed.

Local Notation idx h t := (nth t (h_idx h) 0%nat).
Local Notation slp h t := (nth t (h_slp h) 0).
Definition hgt (f : nat -> R) (zk : R) (h : hull RN) (t : nat) : R := if Nat.eqb t (h_s h) then zk else f (nth t (h_idx h) 0%nat).
(** sg = 1: concave majorant of f from (k, zk) to (i, f i); sg = -1: convex minorant.  [m]: the slopes
    are ordered up to segment m *)
Definition hul (sg : R) (f : nat -> R) (zk : R) (h : hull RN) (m : nat) : Prop :=
  (forall t, (h_s h <= t < h_c h)%nat -> slp h (S t) * (INR (idx h (S t)) - INR (idx h t)) = f (idx h (S t)) - hgt f zk h t) /\
  (forall t, (h_s h < t < m)%nat -> sg * slp h (S t) < sg * slp h t) /\
  (forall t j, (h_s h <= t < h_c h)%nat -> (idx h t < j <= idx h (S t))%nat ->
     sg * f j <= sg * (f (idx h (S t)) + slp h (S t) * (INR j - INR (idx h (S t))))).

Lemma seg_merge sg (a b v p q r Hp Hq Hr : R) : sg = 1 \/ sg = -1 -> p < q -> q < r -> a * (q - p) = Hq - Hp -> b * (r - q) = Hr - Hq -> v * (r - p) = Hr - Hp ->
  sg * a <= sg * b -> sg * a <= sg * v /\ sg * v <= sg * b.
Proof.
  intros Hs A B E1 E2 E3 H. assert (Q1 : (v - a) * (r - p) = (b - a) * (r - q)) by lra. assert (Q2 : (b - v) * (r - p) = (b - a) * (q - p)) by lra.
  destruct Hs as [-> | ->]; split; apply Rnot_lt_le; intros N; nra.
Qed.

Lemma hul_mrg n up f zk k i h : hsafe n h k i -> (i <= n)%nat -> pops up h = true -> hul (sgn up) f zk h (h_c h - 1) ->
  hul (sgn up) f zk (mrg (K:=RN) f i zk k h) (h_c h - 1 - 1) /\ ((h_s h + 1 < h_c h - 1)%nat -> slp (mrg (K:=RN) f i zk k h) (h_s h + 1) = slp h (h_s h + 1)) /\
  sgn up * slp h (h_s h + 1) <= sgn up * slp (mrg (K:=RN) f i zk k h) (h_s h + 1).
Proof.
  intros S Hn Hp (E & M & J). unfold pops in Hp. apply andb_prop in Hp as [Hp Hc]. apply Nat.ltb_lt in Hp. apply cmp_R in Hc. change (@n0 RN) with 0 in Hc.
  pose proof (hsafe_gap _ _ _ _ S) as G. destruct S as (L1 & L2 & Hs & Hk & E1 & E2 & Hi).
  set (c' := (h_c h - 1)%nat) in *. set (t0 := (c' - 1)%nat).
  assert (Ec : S c' = h_c h) by lia. assert (Et : S t0 = c') by lia.
  pose proof (Hi c' ltac:(lia)) as I1. pose proof (Hi t0 ltac:(lia)) as I2. rewrite Ec in I1. rewrite Et in I2.
  pose proof (E c' ltac:(lia)) as Sb. rewrite Ec, E2 in Sb. assert (Hh : hgt f zk h c' = f (idx h c')) by (unfold hgt; rewrite (proj2 (Nat.eqb_neq c' (h_s h))) by lia; reflexivity). rewrite Hh in Sb.
  pose proof (E t0 ltac:(lia)) as Sa. rewrite Et in Sa.
  set (v := if (h_s h + 1 <? c')%nat then (f i - f (idx h (c' - 1))) / (INR i - INR (idx h (c' - 1))) else (f i - zk) / (INR i - INR k)).
  assert (Em : mrg (K:=RN) f i zk k h = mkH (K:=RN) (upd (h_idx h) c' i) (upd (h_slp h) c' v) (h_s h) c').
  { unfold mrg, v. fold c'. destruct (h_s h + 1 <? c')%nat; rewrite dv_R; reflexivity. }
  assert (Sv : v * (INR i - INR (idx h t0)) = f i - hgt f zk h t0).
  { assert (Hpos : 0 < INR i - INR (idx h t0)) by (apply INR_lt; lia). unfold v, hgt. fold t0. destruct (Nat.ltb_spec (h_s h + 1) c') as [B|B].
    - rewrite (proj2 (Nat.eqb_neq t0 (h_s h))) by lia. field. lra.
    - assert (Q : t0 = h_s h) by lia. rewrite Q, Nat.eqb_refl. rewrite Q in Hpos. rewrite E1 in *. field. lra. }
  clearbody v. rewrite Em. cbn [h_s h_c h_idx h_slp].
  destruct (seg_merge (sgn up) (slp h c') (slp h (h_c h)) v (INR (idx h t0)) (INR (idx h c')) (INR i) (hgt f zk h t0) (f (idx h c')) (f i)) as (V1 & V2); try assumption; [apply sgn_cases|apply lt_INR; lia|apply lt_INR; lia|].
  assert (Nv : nth c' (upd (h_slp h) c' v) 0 = v) by (apply nth_upd_eq; lia). assert (Ni : nth c' (upd (h_idx h) c' i) 0%nat = i) by (apply nth_upd_eq; lia).
  split; [split; [|split]|].
  - cbn [h_s h_c h_idx h_slp]. intros t Ht. unfold hgt. cbn [h_s h_idx]. rewrite (nth_upd_neq (h_idx h) c' t) by lia. fold (hgt f zk h t).
    destruct (Nat.eq_dec t t0) as [->|D]; [rewrite Et, Nv, Ni; exact Sv|]. rewrite !nth_upd_neq by lia. apply E. lia.
  - cbn [h_s h_c h_idx h_slp]. intros t Ht. rewrite (nth_upd_neq (h_slp h) c' t) by lia. rewrite nth_upd_neq by lia. apply M. lia.
  - cbn [h_s h_c h_idx h_slp]. intros t j Ht. rewrite (nth_upd_neq (h_idx h) c' t) by lia. destruct (Nat.eq_dec t t0) as [->|D].
    2:{ rewrite !nth_upd_neq by lia. apply J. lia. }
    rewrite Et, Nv, Ni. intros Hj. destruct (le_lt_dec j (idx h c')) as [A|A].
    + pose proof (J t0 j ltac:(lia) ltac:(rewrite Et; lia)) as Q. rewrite Et in Q. eapply Rle_trans; [exact Q|].
      assert (0 <= INR j - INR (idx h t0)) by (apply INR_le; lia).
      replace (f (idx h c') + slp h c' * (INR j - INR (idx h c'))) with (hgt f zk h t0 + slp h c' * (INR j - INR (idx h t0))) by lra.
      replace (f i + v * (INR j - INR i)) with (hgt f zk h t0 + v * (INR j - INR (idx h t0))) by lra.
      pose proof (Rmult_le_compat_r _ _ _ H V1). destruct (sgn_cases up) as [Q'|Q']; rewrite Q' in *; lra.
    + pose proof (J c' j ltac:(lia) ltac:(rewrite Ec, E2; lia)) as Q. rewrite Ec, E2 in Q. eapply Rle_trans; [exact Q|].
      assert (0 <= INR i - INR j) by (apply INR_le; lia). pose proof (Rmult_le_compat_r _ _ _ H V2). destruct (sgn_cases up) as [Q'|Q']; rewrite Q' in *; lra.
  - split.
    + intros B. rewrite nth_upd_neq by lia. reflexivity.
    + destruct (Nat.eq_dec (h_s h + 1) c') as [B|B]; [|rewrite nth_upd_neq by lia; lra]. rewrite B, Nv. exact V1.
Qed.

(** first slope: bound on all points *)
Lemma hul_first n sg f zk k i h : (sg = 1 \/ sg = -1) -> hsafe n h k i -> (h_s h < h_c h)%nat -> hul sg f zk h (h_c h) ->
  forall j, (k < j <= i)%nat -> sg * f j <= sg * (zk + slp h (h_s h + 1) * (INR j - INR k)).
Proof.
  intros Hsg S Hc (E & M & J). destruct S as (L1 & L2 & Hs & Hk & E1 & E2 & Hi). set (u := slp h (h_s h + 1)).
  assert (Mu : forall t, (h_s h < t <= h_c h)%nat -> sg * slp h t <= sg * u).
  { induction t as [|t IH]; intros Ht; [lia|]. destruct (Nat.eq_dec t (h_s h)) as [->|D]; [unfold u; replace (h_s h + 1)%nat with (S (h_s h)) by lia; lra|].
    specialize (IH ltac:(lia)). pose proof (M t ltac:(lia)). lra. }
  assert (P : forall t, (h_s h <= t <= h_c h)%nat -> sg * hgt f zk h t <= sg * (zk + u * (INR (idx h t) - INR k)) /\ (t <> h_s h -> hgt f zk h t = f (idx h t))).
  { induction t as [|t IH]; intros Ht.
    - assert (Z : h_s h = 0%nat) by lia. unfold hgt. rewrite Z. rewrite Z in E1. rewrite Nat.eqb_refl, E1. split; [apply Req_le; ring|lia].
    - split. 2:{ intros D. unfold hgt. rewrite (proj2 (Nat.eqb_neq _ _) D). reflexivity. }
      destruct (Nat.eq_dec (S t) (h_s h)) as [D|D]; [unfold hgt; rewrite (proj2 (Nat.eqb_eq _ _) D), D, E1; apply Req_le; ring|].
      destruct (IH ltac:(lia)) as (IH1 & _). pose proof (E t ltac:(lia)) as Q. unfold hgt at 1. rewrite (proj2 (Nat.eqb_neq _ _) D).
      pose proof (Mu (S t) ltac:(lia)) as Q2. assert (0 < INR (idx h (S t)) - INR (idx h t)) as Hp by (apply INR_lt, Hi; lia).
      pose proof (Rmult_le_compat_r _ _ _ (Rlt_le _ _ Hp) Q2) as Q3. destruct Hsg as [-> | ->]; lra. }
  intros j Hj. assert (T : exists t, (h_s h <= t < h_c h)%nat /\ (idx h t < j <= idx h (S t))%nat).
  { assert (G : forall m, (h_s h <= m <= h_c h)%nat -> (j <= idx h m)%nat -> exists t, (h_s h <= t < h_c h)%nat /\ (idx h t < j <= idx h (S t))%nat).
    { induction m as [|m IH]; intros Hm B; [assert (Z : h_s h = 0%nat) by lia; rewrite Z in E1; lia|]. destruct (Nat.eq_dec (S m) (h_s h)) as [D|D]; [rewrite D in B; lia|].
      destruct (le_lt_dec j (idx h m)) as [A|A]; [apply IH; lia|]. exists m. lia. }
    apply (G (h_c h)); lia. }
  destruct T as (t & Ht & Hj'). eapply Rle_trans; [apply (J t j Ht Hj')|]. destruct (P t ltac:(lia)) as (Q1 & _). pose proof (E t Ht) as Q. pose proof (Mu (S t) ltac:(lia)) as Q2.
  assert (0 < INR j - INR (idx h t)) as Hp by (apply INR_lt; lia). pose proof (Rmult_le_compat_r _ _ _ (Rlt_le _ _ Hp) Q2) as Q3.
  replace (f (idx h (S t)) + slp h (S t) * (INR j - INR (idx h (S t)))) with (hgt f zk h t + slp h (S t) * (INR j - INR (idx h t))) by lra. destruct Hsg as [-> | ->]; lra.
Qed.
(** several segments: strict at the end point *)
Lemma hul_strict n sg f zk k i h : (sg = 1 \/ sg = -1) -> hsafe n h k i -> (h_s h + 1 < h_c h)%nat -> hul sg f zk h (h_c h) ->
  sg * f i < sg * (zk + slp h (h_s h + 1) * (INR i - INR k)).
Proof.
  intros Hsg S Hc (E & M & J). destruct S as (L1 & L2 & Hs & Hk & E1 & E2 & Hi). set (u := slp h (h_s h + 1)).
  assert (Mu : forall t, (h_s h + 1 < t <= h_c h)%nat -> sg * slp h t < sg * u).
  { induction t as [|t IH]; intros Ht; [lia|]. destruct (Nat.eq_dec t (h_s h + 1)) as [->|D]; [pose proof (M (h_s h + 1)%nat ltac:(lia)); exact H|].
    specialize (IH ltac:(lia)). pose proof (M t ltac:(lia)). lra. }
  assert (P : forall t, (h_s h + 1 < t <= h_c h)%nat -> sg * f (idx h t) < sg * (zk + u * (INR (idx h t) - INR k))).
  { induction t as [|t IH]; intros Ht; [lia|]. pose proof (E t ltac:(lia)) as Q. unfold hgt in Q. rewrite (proj2 (Nat.eqb_neq t (h_s h))) in Q by lia.
    pose proof (Mu (S t) ltac:(lia)) as Q2. assert (0 < INR (idx h (S t)) - INR (idx h t)) as Hp by (apply INR_lt, Hi; lia). pose proof (Rmult_lt_compat_r _ _ _ Hp Q2) as Q3.
    destruct (Nat.eq_dec t (h_s h + 1)) as [D|D].
    - pose proof (E (h_s h) ltac:(lia)) as Q4. unfold hgt in Q4. rewrite Nat.eqb_refl, E1 in Q4. replace (S (h_s h)) with t in Q4 by lia. unfold u in *. rewrite <- D in *. destruct Hsg as [-> | ->]; lra.
    - specialize (IH ltac:(lia)). destruct Hsg as [-> | ->]; lra. }
  pose proof (P (h_c h) ltac:(lia)) as Q. rewrite E2 in Q. exact Q.
Qed.
Lemma hul_single sg f zk n k i h m : hsafe n h k i -> h_c h = (h_s h + 1)%nat -> hul sg f zk h m -> slp h (h_s h + 1) * (INR i - INR k) = f i - zk.
Proof.
  intros (L1 & L2 & Hs & Hk & E1 & E2 & Hi) A (E & _). specialize (E (h_s h) ltac:(lia)). unfold hgt in E. rewrite Nat.eqb_refl, E1 in E. replace (S (h_s h)) with (h_c h) in E by lia.
  rewrite E2 in E. rewrite <- A. exact E.
Qed.

Lemma push_R n up (y : list (option RN)) (f : nat -> R) i ix (z : list R) c k (h : hull RN) : filled (K:=RN) y n f -> csafe (K:=RN) n ix z c k -> (1 <= i <= n)%nat -> hsafe n h k (i - 1) ->
  hul (sgn up) f (nth c z 0) h (h_c h) -> (h_s h = h_c h -> nth c z 0 = f (i - 1)%nat) ->
  exists h', push up y i ix z c h = Ok h' /\ hsafe n h' k i /\ (h_s h' < h_c h')%nat /\ h_s h' = h_s h /\ hul (sgn up) f (nth c z 0) h' (h_c h') /\
    ((h_s h < h_c h)%nat -> sgn up * slp h (h_s h + 1) <= sgn up * slp h' (h_s h' + 1) /\ ((h_s h' + 1 < h_c h')%nat -> slp h' (h_s h' + 1) = slp h (h_s h + 1))).
Proof.
  intros Hy C Hi S Hh H0. pose proof (hsafe_gap _ _ _ _ S) as G.
  destruct (psh_safe (K:=RN) n f i k h S Hi) as (S1 & S2).
  set (Q := fun h' : hull RN => h_s h' = h_s h /\ hul (sgn up) f (nth c z 0) h' (h_c h' - 1) /\
     ((h_s h < h_c h)%nat -> sgn up * slp h (h_s h + 1) <= sgn up * slp h' (h_s h + 1) /\ ((h_s h + 1 < h_c h')%nat -> slp h' (h_s h + 1) = slp h (h_s h + 1)))).
  destruct (push_run (K:=RN) n up y f i ix z c k h Q Hy C Hi S) as (h' & A1 & A2 & A3 & A4 & (A5 & A6 & A7) & A8).
  - destruct S as (L1 & L2 & Hs & Hk & E1 & E2 & Hinc). destruct Hh as (E & M & J). unfold Q, psh. cbn [h_s h_c h_idx h_slp]. split; [reflexivity|].
    assert (Nn : nth (h_c h + 1) (upd (h_slp h) (h_c h + 1) (nsub RN (f i) (f (i - 1)%nat))) 0 = f i - f (i - 1)%nat) by (apply nth_upd_eq; lia).
    assert (Ni : nth (h_c h + 1) (upd (h_idx h) (h_c h + 1) i) 0%nat = i) by (apply nth_upd_eq; lia).
    split; [split; [|split]|].
    + cbn [h_s h_c h_idx h_slp]. intros t Ht. unfold hgt. cbn [h_s h_idx]. rewrite (nth_upd_neq (h_idx h) _ t) by lia. fold (hgt f (nth c z 0) h t).
      destruct (Nat.eq_dec t (h_c h)) as [->|D]; [|rewrite !nth_upd_neq by lia; apply E; lia].
      replace (Datatypes.S (h_c h)) with (h_c h + 1)%nat by lia. rewrite Nn, Ni, E2.
      assert (Hg : hgt f (nth c z 0) h (h_c h) = f (i - 1)%nat). { unfold hgt. destruct (Nat.eqb_spec (h_c h) (h_s h)) as [Z|Z]; [apply H0; lia|rewrite E2; reflexivity]. }
      rewrite Hg. replace (INR i) with (INR (i - 1) + 1) by (rewrite <- S_INR; f_equal; lia). ring.
    + cbn [h_s h_c h_idx h_slp]. intros t Ht. rewrite (nth_upd_neq (h_slp h) _ t) by lia. rewrite nth_upd_neq by lia. apply M. lia.
    + cbn [h_s h_c h_idx h_slp]. intros t j Ht. rewrite (nth_upd_neq (h_idx h) _ t) by lia. destruct (Nat.eq_dec t (h_c h)) as [->|D]; [|rewrite !nth_upd_neq by lia; apply J; lia].
      replace (Datatypes.S (h_c h)) with (h_c h + 1)%nat by lia. rewrite Nn, Ni, E2. intros Hj. replace j with i by lia. apply Req_le. ring.
    + intros B. rewrite nth_upd_neq by lia. split; [lra|reflexivity].
  - intros h1 T1 (T2 & T3 & T4) T5. pose proof (hul_mrg n up f (nth c z 0) k i h1 T1 ltac:(lia) T5 T3) as (U1 & U2 & U3). rewrite T2 in U2, U3.
    assert (T6 : (h_s h1 + 1 < h_c h1)%nat) by (unfold pops in T5; apply andb_prop in T5 as [T5 _]; apply Nat.ltb_lt in T5; lia).
    unfold Q. change (@n0 RN) with 0. cbn [mrg h_s h_c]. split; [exact T2|]. split; [exact U1|].
    intros B. destruct (T4 B) as (T4a & T4b). split; [eapply Rle_trans; [exact T4a|exact U3]|]. intros B'. eapply eq_trans; [exact (U2 B')|]. apply T4b. lia.
  - exists h'. split; [exact A1|]. split; [exact A2|]. split; [exact A3|]. split; [exact A4|]. split.
    + destruct A6 as (E & M & J). split; [exact E|]. split; [|exact J]. intros t Ht. destruct (Nat.eq_dec (Datatypes.S t) (h_c h')) as [D|D]; [|apply M; lia].
      unfold pops in A8. apply andb_false_iff in A8 as [A8|A8]; [apply Nat.ltb_ge in A8; lia|]. apply cmp_R_false in A8. change (@n0 RN) with 0 in A8. rewrite D. replace t with (h_c h' - 1)%nat by lia. exact A8.
    + rewrite A4. exact A7.
Qed.

(** ** the string *)
Definition sl (ix : list nat) (z : list R) (t : nat) : R := (nth t z 0 - nth (t - 1) z 0) / (INR (nth t ix 0%nat) - INR (nth (t - 1) ix 0%nat)).
(** within the bounds, with kinks on the right side; [f1], [f2]: lower and upper bound for sg = 1, exchanged for sg = -1 *)
Definition chn (sg : R) (f1 f2 : nat -> R) (ix : list nat) (z : list R) (c : nat) : Prop :=
  (forall t j, (t < c)%nat -> (nth t ix 0 < j <= nth (S t) ix 0)%nat ->
     sg * f1 j <= sg * (nth (S t) z 0 + sl ix z (S t) * (INR j - INR (nth (S t) ix 0%nat))) <= sg * f2 j) /\
  (forall t, (1 <= t < c)%nat -> (nth t z 0 = f2 (nth t ix 0%nat) /\ sg * sl ix z t <= sg * sl ix z (S t)) \/ (nth t z 0 = f1 (nth t ix 0%nat) /\ sg * sl ix z (S t) <= sg * sl ix z t)).
Definition last_ok (sg : R) (f1 f2 : nat -> R) (ix : list nat) (z : list R) (c k : nat) (l u : R) : Prop :=
  (c = 0)%nat \/ (nth c z 0 = f2 k /\ sg * sl ix z c <= sg * l) \/ (nth c z 0 = f1 k /\ sg * u <= sg * sl ix z c).
Lemma chn_sym sg f1 f2 ix z c : chn sg f1 f2 ix z c -> chn (- sg) f2 f1 ix z c.
Proof. intros (A & B). split; [intros t j H1 H2; specialize (A t j H1 H2); lra|]. intros t H. destruct (B t H) as [(B1 & B2)|(B1 & B2)]; [right|left]; (split; [exact B1|lra]). Qed.
Lemma last_sym sg f1 f2 ix z c k l u : last_ok sg f1 f2 ix z c k l u -> last_ok (- sg) f2 f1 ix z c k u l.
Proof. intros [A|[(A & B)|(A & B)]]; [left; exact A|right; right; split; [exact A|lra]|right; left; split; [exact A|lra]]. Qed.

Lemma sl_upd ix z c k v t : (t <= c)%nat -> sl (upd ix (c + 1) k) (upd z (c + 1) v) t = sl ix z t.
Proof. intros H. unfold sl. rewrite !nth_upd_neq by lia. reflexivity. Qed.
(** appending a segment *)
Lemma chn_app n sg (f1 f2 : nat -> R) ix (z : list R) c k k' (v u : R) : csafe (K:=RN) n ix z c k -> (k < k' <= n)%nat -> u * (INR k' - INR k) = v - nth c z 0 -> chn sg f1 f2 ix z c ->
  last_ok sg f1 f2 ix z c k u u ->
  (forall j, (k < j <= k')%nat -> sg * f1 j <= sg * (v + u * (INR j - INR k')) <= sg * f2 j) ->
  let ix' := upd ix (c + 1) k' in let z' := upd z (c + 1) v in sl ix' z' (c + 1) = u /\ chn sg f1 f2 ix' z' (c + 1).
Proof.
  intros C Hk Hu (A & B) La Hj ix' z'. pose proof (csafe_gap _ _ _ _ _ C) as G. destruct C as (M1 & M2 & M0 & M3 & Mi). change (@length R z = S n) in M2.
  assert (Es : sl ix' z' (c + 1) = u).
  { unfold sl, ix', z'. rewrite !nth_upd_eq by lia. replace (c + 1 - 1)%nat with c by lia. rewrite !nth_upd_neq by lia. rewrite M3, <- Hu. field. pose proof (INR_lt k k' ltac:(lia)). lra. }
  split; [exact Es|]. split.
  - intros t j Ht. destruct (Nat.eq_dec t c) as [->|D].
    + replace (S c) with (c + 1)%nat by lia. rewrite Es. unfold ix', z'. rewrite !nth_upd_eq by lia. rewrite nth_upd_neq by lia. rewrite M3. apply Hj.
    + unfold ix', z'. rewrite sl_upd by lia. rewrite !nth_upd_neq by lia. apply A. lia.
  - intros t Ht. destruct (Nat.eq_dec t c) as [->|D].
    + replace (S c) with (c + 1)%nat by lia. rewrite Es. unfold ix', z'. rewrite sl_upd by lia. rewrite !nth_upd_neq by lia. rewrite M3. destruct La as [La|La]; [lia|exact La].
    + unfold ix', z'. rewrite !sl_upd by lia. rewrite !nth_upd_neq by lia. apply B. lia.
Qed.

(** invariant of the two advancing loops; sg is the sign of [h1] *)
Definition adv_inv (sg : R) (f1 f2 : nat -> R) (i : nat) (h1 h2 : hull RN) (ix : list nat) (z : list R) (c k : nat) : Prop :=
  hul sg f1 (nth c z 0) h1 (h_c h1) /\ hul (- sg) f2 (nth c z 0) h2 (h_c h2) /\ chn sg f1 f2 ix z c /\
  last_ok sg f1 f2 ix z c k (slp h1 (h_s h1 + 1)) (slp h2 (h_s h2 + 1)) /\ nth 0 z 0 = 0 /\
  ((h_s h2 + 1 < h_c h2)%nat -> last_ok sg f1 f2 ix z c k (slp h2 (h_s h2 + 1)) (slp h2 (h_s h2 + 1)) /\
     forall j, (k < j < i)%nat -> sg * f1 j <= sg * (nth c z 0 + slp h2 (h_s h2 + 1) * (INR j - INR k))).
Lemma adv_step n up (f1 f2 : nat -> R) i (h1 h2 : hull RN) ix (z : list R) c k : (i <= n)%nat -> csafe (K:=RN) n ix z c k -> hsafe n h1 k i -> hsafe n h2 k i -> (h_s h1 < h_c h1)%nat ->
  adv_inv (sgn up) f1 f2 i h1 h2 ix z c k -> advs up h1 h2 = true ->
  adv_inv (sgn up) f1 f2 i (a_h1 (K:=RN) f1 f2 i h1 h2) (a_h2 h2) (upd ix (c + 1) (a_k h2)) (upd z (c + 1) (f2 (a_k h2))) (c + 1) (a_k h2).
Proof.
  intros Hn C S1 S2 A1 (H1 & H2 & Hc & Hl & Hz & HB) Ha. unfold advs in Ha. apply andb_prop in Ha as [Ha Hcmp]. apply andb_prop in Ha as [Ha Hb]. apply Nat.eqb_eq in Ha. apply Nat.ltb_lt in Hb.
  destruct (HB Hb) as (Lu & B). clear HB. apply cmp_R in Hcmp. change (@n0 RN) with 0 in Hcmp. rewrite Ha in Hcmp.
  destruct (advance_safe1 (K:=RN) n f1 f2 i h1 h2 ix z c k C S1 S2 Hn Ha Hb) as (K1 & _). set (k' := a_k h2) in *. set (sg := sgn up) in *.
  assert (Hsg : sg = 1 \/ sg = -1) by apply sgn_cases. assert (Hng : sgn (negb up) = - sg) by (unfold sg, sgn; destruct up; cbn; lra). rewrite Hng in Hcmp.
  set (l := slp h1 (h_s h1 + 1)) in *. set (u := slp h2 (h_s h2 + 1)) in *. set (zk := nth c z 0) in *.
  pose proof (csafe_gap _ _ _ _ _ C) as Gc. pose proof (hsafe_gap _ _ _ _ S1) as G1. pose proof (hsafe_gap _ _ _ _ S2) as G2.
  assert (Eu : u * (INR k' - INR k) = f2 k' - zk).
  { destruct H2 as (E & _). destruct S2 as (_ & _ & _ & _ & E1 & _). specialize (E (h_s h2) ltac:(lia)). unfold hgt in E. rewrite Nat.eqb_refl, E1 in E. replace (S (h_s h2)) with (h_s h2 + 1)%nat in E by lia. exact E. }
  pose proof (hul_single _ _ _ _ _ _ _ _ S1 Ha H1) as El. fold l in El. fold zk in El.
  set (l' := (f1 i - f2 k') / (INR i - INR k')). assert (P1 : 0 < INR i - INR k') by (apply INR_lt; lia). assert (P2 : 0 < INR k' - INR k) by (apply INR_lt; lia).
  assert (El' : l' * (INR i - INR k') = f1 i - f2 k') by (unfold l'; field; lra).
  assert (Hll : sg * l <= sg * l'). { assert (Q : (l' - l) * (INR i - INR k') = (l - u) * (INR k' - INR k)) by lra. destruct Hsg as [Q'|Q']; rewrite Q' in *; apply Rnot_lt_le; intros N; nra. }
  assert (Eh1 : a_h1 (K:=RN) f1 f2 i h1 h2 = mkH (K:=RN) (upd (h_idx h1) (h_s h1) k') (upd (h_slp h1) (h_c h1) l') (h_s h1) (h_c h1)) by (unfold a_h1; fold k'; rewrite dv_R; reflexivity).
  destruct S1 as (L1 & L2 & _ & _ & E1a & E1b & _). destruct S2 as (L1' & L2' & _ & Hk2 & E2a & E2b & Hi2). destruct (C) as (M1 & M2 & M0 & M3 & Mi). change (@length R z = S n) in M2.
  assert (Zc : nth (c + 1) (upd z (c + 1) (f2 k')) 0 = f2 k') by (apply nth_upd_eq; rewrite M2; lia).
  destruct (chn_app n sg f1 f2 ix z c k k' (f2 k') u C ltac:(lia) Eu Hc Lu) as (Es & Hc').
  { intros j Hj. pose proof (B j ltac:(lia)) as B1. replace (f2 k' + u * (INR j - INR k')) with (zk + u * (INR j - INR k)) by lra. split; [exact B1|].
    destruct H2 as (_ & _ & J). pose proof (J (h_s h2) j ltac:(lia)) as Q. replace (S (h_s h2)) with (h_s h2 + 1)%nat in Q by lia. fold u in Q. fold k' in Q. change (nth (h_s h2 + 1) (h_idx h2) 0%nat) with k' in Q. rewrite E2a in Q. specialize (Q Hj).
    replace (zk + u * (INR j - INR k)) with (f2 k' + u * (INR j - INR k')) by lra. lra. }
  assert (Mu : - sg * slp h2 (h_s h2 + 1 + 1) < - sg * u). { destruct H2 as (_ & M & _). pose proof (M (h_s h2 + 1)%nat ltac:(lia)) as Q. replace (S (h_s h2 + 1)) with (h_s h2 + 1 + 1)%nat in Q by lia. exact Q. }
  unfold adv_inv. rewrite Eh1. cbn [a_h2 h_s h_c h_idx h_slp]. rewrite Zc.
  assert (Nl : nth (h_s h1 + 1) (upd (h_slp h1) (h_c h1) l') 0 = l') by (rewrite <- Ha; apply nth_upd_eq; lia). rewrite Nl.
  split; [split; [|split]|].
  - cbn [h_s h_c h_idx h_slp]. intros t Ht. replace t with (h_s h1) by lia. unfold hgt. cbn [h_s]. rewrite Nat.eqb_refl. replace (S (h_s h1)) with (h_s h1 + 1)%nat by lia. rewrite Nl.
    rewrite nth_upd_neq by lia. rewrite nth_upd_eq by lia. rewrite <- Ha, E1b. exact El'.
  - cbn [h_s h_c h_idx h_slp]. intros t Ht. lia.
  - cbn [h_s h_c h_idx h_slp]. intros t j Ht. replace t with (h_s h1) by lia. replace (S (h_s h1)) with (h_s h1 + 1)%nat by lia. rewrite Nl. rewrite (nth_upd_neq _ _ (h_s h1 + 1)) by lia. rewrite nth_upd_eq by lia. rewrite <- Ha, E1b.
    intros Hj. destruct (Nat.eq_dec j i) as [->|D]; [apply Req_le; ring|]. pose proof (B j ltac:(lia)) as B1. eapply Rle_trans; [exact B1|].
    replace (zk + u * (INR j - INR k)) with (f2 k' + u * (INR j - INR k')) by lra. replace (f1 i + l' * (INR j - INR i)) with (f2 k' + l' * (INR j - INR k')) by lra.
    pose proof (INR_lt k' j ltac:(lia)) as Pj. assert (Q : sg * u <= sg * l') by lra. pose proof (Rmult_le_compat_r _ _ _ (Rlt_le _ _ Pj) Q). lra.
  - split; [|split; [exact Hc'|split; [|split]]].
    + destruct H2 as (E & M & J). split; [|split].
      * cbn [a_h2 h_s h_c h_idx h_slp]. intros t Ht. rewrite E by lia. unfold hgt. cbn [a_h2 h_s h_idx]. rewrite (proj2 (Nat.eqb_neq t (h_s h2))) by lia. destruct (Nat.eqb_spec t (h_s h2 + 1)) as [->|D]; reflexivity.
      * cbn [a_h2 h_s h_c h_idx h_slp]. intros t Ht. apply M. lia.
      * cbn [a_h2 h_s h_c h_idx h_slp]. intros t j Ht. apply J. lia.
    + right. left. rewrite Es. split; [exact Zc|]. lra.
    + rewrite nth_upd_neq by lia. exact Hz.
    + intros Hm. split.
      * right. left. rewrite Es. split; [exact Zc|]. lra.
      * intros j Hj. pose proof (B j ltac:(lia)) as B1. eapply Rle_trans; [exact B1|]. replace (zk + u * (INR j - INR k)) with (f2 k' + u * (INR j - INR k')) by lra.
        pose proof (INR_lt k' j ltac:(lia)) as Pj. pose proof (Rmult_le_compat_r _ _ _ (Rlt_le _ _ Pj) (Rlt_le _ _ Mu)). lra.
Qed.
