(** * The taut string routine computes the 1-D total variation prox *)
From Coq Require Import ZArith Bool List Lia Reals Lra.
From Verif Require Import Num Vec Spec RVec ModelPenalty ModelTv TvSafe TvHull TvKkt.
Import ListNotations.
Local Open Scope R_scope.

Local Notation idx h t := (nth t (h_idx h) 0%nat).
Local Notation slp h t := (nth t (h_slp h) 0).
Lemma sgn_neg up : - sgn up = sgn (negb up).
Proof. unfold sgn; destruct up; cbn; lra. Qed.

Lemma neg_lt a b : -1 * b < -1 * a -> a <= b.
Proof. lra. Qed.
Lemma pos_lt a b : 1 * a < 1 * b -> a <= b.
Proof. lra. Qed.

Section Taut.
Variables (n : nat) (flo fup : nat -> R) (ylo yup : list (option RN)).
Hypothesis Hylo : filled (K:=RN) ylo n flo.
Hypothesis Hyup : filled (K:=RN) yup n fup.
Hypothesis Hlo0 : flo 0%nat = 0.
Hypothesis Hup0 : fup 0%nat = 0.
Hypothesis Hle : forall j, (j <= n)%nat -> flo j <= fup j.

Definition tinv (i : nat) (t : taut RN) : Prop := exists k, let z := t_z t in let c := t_c t in let lo := t_low t in let up := t_up t in
  csafe n (t_ix t) z c k /\ hsafe n lo k i /\ hsafe n up k i /\ hul (sgn false) flo (nth c z 0) lo (h_c lo) /\ hul (sgn true) fup (nth c z 0) up (h_c up) /\
  chn (sgn false) flo fup (t_ix t) z c /\ nth 0 z 0 = 0 /\
  ((1 <= i)%nat -> (h_s lo < h_c lo)%nat /\ (h_s up < h_c up)%nat /\ slp lo (h_s lo + 1) <= slp up (h_s up + 1) /\
     last_ok (sgn false) flo fup (t_ix t) z c k (slp lo (h_s lo + 1)) (slp up (h_s up + 1))).

Lemma advance_id up y1 y2 f1 f2 fuel i h1 h2 ix z c k : filled (K:=RN) y1 n f1 -> filled (K:=RN) y2 n f2 -> csafe (K:=RN) n ix z c k -> hsafe n h1 k i -> hsafe n h2 k i -> (i <= n)%nat ->
  advs up h1 h2 = false -> advance (K:=RN) (S fuel) up y1 y2 i h1 h2 ix z c = Ok (h1, h2, ix, z, c).
Proof. intros A B C D E F G. rewrite (advance_eq n fuel up y1 y2 f1 f2 i h1 h2 ix z c k) by assumption. rewrite G. reflexivity. Qed.
Lemma both_single i k zk (lo up : hull RN) : hsafe n lo k i -> hsafe n up k i -> (i <= n)%nat -> h_c lo = (h_s lo + 1)%nat -> h_c up = (h_s up + 1)%nat -> (k < i)%nat ->
  hul (sgn false) flo zk lo (h_c lo) -> hul (sgn true) fup zk up (h_c up) -> slp lo (h_s lo + 1) <= slp up (h_s up + 1).
Proof.
  intros S1 S2 Hi A B Hk H1 H2. pose proof (hul_single _ _ _ _ _ _ _ _ S1 A H1) as E1. pose proof (hul_single _ _ _ _ _ _ _ _ S2 B H2) as E2.
  pose proof (INR_lt k i Hk) as P. pose proof (Hle i Hi). apply Rnot_lt_le. intros N. pose proof (Rmult_lt_compat_r _ _ _ P N). lra.
Qed.
Lemma step_R i t : (1 <= i <= n)%nat -> tinv (i - 1) t -> exists t', taut_step ylo yup i t = Ok t' /\ tinv i t'.
Proof.
  intros Hi (k & C & S1 & S2 & H1 & H2 & Hc & Hz & HL). set (ix := t_ix t) in *. set (z := t_z t) in *. set (c := t_c t) in *. set (lo := t_low t) in *. set (up := t_up t) in *. cbn zeta in *.
  pose proof (hsafe_gap _ _ _ _ S1) as G1. pose proof (hsafe_gap _ _ _ _ S2) as G2. pose proof (csafe_gap _ _ _ _ _ C) as Gc.
  assert (Z0 : (i - 1 = 0)%nat -> nth c z 0 = 0 /\ c = 0%nat /\ k = 0%nat). { intros E. assert (Ec : c = 0%nat) by lia. rewrite Ec. split; [exact Hz|lia]. }
  assert (Dl : (1 <= i - 1)%nat \/ (h_s lo = h_c lo /\ h_s up = h_c up /\ i = 1%nat)).
  { destruct (le_lt_dec 1 (i - 1)) as [A|A]; [left; exact A|right]. destruct S1 as (_ & _ & A1 & _). destruct S2 as (_ & _ & A2 & _). lia. }
  destruct (push_R n false ylo flo i ix z c k lo Hylo C Hi S1 H1) as (lo' & El & Sl & Al & Al0 & Hl & Fl).
  { intros E. destruct Dl as [D|D]; [destruct (HL D); lia|]. destruct (Z0 ltac:(lia)) as (E' & _). eapply eq_trans; [exact E'|]. replace (i - 1)%nat with 0%nat by lia. symmetry; exact Hlo0. }
  destruct (push_R n true yup fup i ix z c k up Hyup C Hi S2 H2) as (up' & Eu & Su & Au & Au0 & Hu & Fu).
  { intros E. destruct Dl as [D|D]; [destruct (HL D); lia|]. destruct (Z0 ltac:(lia)) as (E' & _). eapply eq_trans; [exact E'|]. replace (i - 1)%nat with 0%nat by lia. symmetry; exact Hup0. }
  pose proof (hsafe_gap _ _ _ _ Sl) as Gl. pose proof (hsafe_gap _ _ _ _ Su) as Gu.
  set (l := slp lo' (h_s lo' + 1)) in *. set (u := slp up' (h_s up' + 1)) in *.
  assert (La : last_ok (sgn false) flo fup ix z c k l u).
  { destruct Dl as [D|(_ & _ & ->)]; [|left; destruct (Z0 ltac:(lia)); lia]. destruct (HL D) as (D1 & D2 & D3 & D4). destruct (Fl D1) as (Fl1 & _). destruct (Fu D2) as (Fu1 & _). unfold sgn in *.
    destruct D4 as [D4|[(D4 & D5)|(D4 & D5)]]; [left; exact D4|right; left; split; [exact D4|lra]|right; right; split; [exact D4|lra]]. }
  assert (Lu : (h_s up' + 1 < h_c up')%nat -> last_ok (sgn false) flo fup ix z c k u u /\ forall j, (k < j < i)%nat -> sgn false * flo j <= sgn false * (nth c z 0 + u * (INR j - INR k))).
  { intros M. destruct Dl as [D|(_ & _ & ->)]; [|lia]. destruct (HL D) as (D1 & D2 & D3 & D4). destruct (Fu D2) as (_ & Fu2). specialize (Fu2 M). fold u in Fu2. split.
    - unfold sgn in *. destruct D4 as [D4|[(D4 & D5)|(D4 & D5)]]; [left; exact D4|right; left; split; [exact D4|lra]|right; right; split; [exact D4|lra]].
    - intros j Hj. pose proof (hul_first n (sgn false) flo _ k (i - 1) lo (sgn_cases false) S1 D1 H1 j ltac:(lia)) as Q. eapply Rle_trans; [exact Q|]. pose proof (INR_lt k j ltac:(lia)) as P.
      unfold sgn. rewrite Fu2. pose proof (Rmult_le_compat_r _ _ _ (Rlt_le _ _ P) D3). lra. }
  assert (Ll : (h_s lo' + 1 < h_c lo')%nat -> last_ok (sgn true) fup flo ix z c k l l /\ forall j, (k < j < i)%nat -> sgn true * fup j <= sgn true * (nth c z 0 + l * (INR j - INR k))).
  { intros M. destruct Dl as [D|(_ & _ & ->)]; [|lia]. destruct (HL D) as (D1 & D2 & D3 & D4). destruct (Fl D1) as (_ & Fl2). specialize (Fl2 M). fold l in Fl2. split.
    - unfold sgn in *. destruct D4 as [D4|[(D4 & D5)|(D4 & D5)]]; [left; exact D4|right; right; split; [exact D4|lra]|right; left; split; [exact D4|lra]].
    - intros j Hj. pose proof (hul_first n (sgn true) fup _ k (i - 1) up (sgn_cases true) S2 D2 H2 j ltac:(lia)) as Q. eapply Rle_trans; [exact Q|]. pose proof (INR_lt k j ltac:(lia)) as P.
      unfold sgn. rewrite Fl2. pose proof (Rmult_le_compat_r _ _ _ (Rlt_le _ _ P) D3). lra. }
  assert (Ek : (k < i)%nat) by lia.
  unfold taut_step. fold lo up ix z c. rewrite El. cbn [bind]. rewrite Eu. cbn [bind].
  destruct (Nat.eq_dec (h_c lo') (h_s lo' + 1)) as [D|D].
  - (* lower hull is one segment *)
    destruct (advance_run n false ylo yup flo fup i (adv_inv (sgn false) flo fup i) Hylo Hyup ltac:(lia)
       (fun h1 h2 ix z c k a b d e f g => adv_step n false flo fup i h1 h2 ix z c k ltac:(lia) a b d e f g) (S (h_c up')) lo' up' ix z c k C Sl Su Al Au ltac:(lia))
      as (lo2 & up2 & ix2 & z2 & c2 & k2 & -> & C2 & Sl2 & Su2 & Al2 & Au2 & Inv2 & Ad2 & Iff2).
    { unfold adv_inv. rewrite sgn_neg. cbn [negb]. fold l u. auto 10. }
    destruct Inv2 as (I1 & I2 & I3 & I4 & I5 & _). rewrite sgn_neg in I2. cbn [negb] in I2. cbn [bind].
    assert (D2 : h_c lo2 = (h_s lo2 + 1)%nat) by (apply Iff2, D). pose proof (hsafe_gap _ _ _ _ Sl2) as Gl2.
    rewrite (advance_id true yup ylo fup flo (h_c lo2) i up2 lo2 ix2 z2 c2 k2); try assumption; [|lia|].
    2:{ unfold advs. rewrite D2. rewrite (proj2 (Nat.ltb_ge _ _)) by lia. rewrite andb_false_r. reflexivity. }
    cbn [bind]. eexists. split; [reflexivity|]. exists k2. cbn [t_low t_up t_ix t_z t_c]. do 7 (split; [assumption|]). intros _. split; [exact Al2|]. split; [exact Au2|]. split; [|exact I4].
    unfold advs in Ad2. rewrite D2, Nat.eqb_refl in Ad2. cbn [andb] in Ad2. apply andb_false_iff in Ad2 as [Ad2|Ad2].
    + apply Nat.ltb_ge in Ad2. apply (both_single i k2 (nth c2 z2 0)); try assumption; lia.
    + apply cmp_R_false in Ad2. exact (neg_lt _ _ Ad2).
  - rewrite (advance_id false ylo yup flo fup (h_c up') i lo' up' ix z c k); try assumption; [|lia|].
    2:{ unfold advs. rewrite (proj2 (Nat.eqb_neq _ _) D). reflexivity. }
    cbn [bind]. destruct (Nat.eq_dec (h_c up') (h_s up' + 1)) as [D'|D'].
    + (* upper hull is one segment *)
      destruct (advance_run n true yup ylo fup flo i (adv_inv (sgn true) fup flo i) Hyup Hylo ltac:(lia)
         (fun h1 h2 ix z c k a b d e f g => adv_step n true fup flo i h1 h2 ix z c k ltac:(lia) a b d e f g) (S (h_c lo')) up' lo' ix z c k C Su Sl Au Al ltac:(lia))
        as (up2 & lo2 & ix2 & z2 & c2 & k2 & -> & C2 & Su2 & Sl2 & Au2 & Al2 & Inv2 & Ad2 & Iff2).
      { unfold adv_inv. rewrite sgn_neg. cbn [negb]. fold l u. split; [exact Hu|]. split; [exact Hl|]. split; [apply chn_sym in Hc; rewrite sgn_neg in Hc; exact Hc|].
        split; [apply last_sym in La; rewrite sgn_neg in La; exact La|]. auto. }
      destruct Inv2 as (I1 & I2 & I3 & I4 & I5 & _). rewrite sgn_neg in I2. cbn [negb] in I2. cbn [bind].
      assert (D2 : h_c up2 = (h_s up2 + 1)%nat) by (apply Iff2, D'). pose proof (hsafe_gap _ _ _ _ Sl2) as Gl2.
      apply chn_sym in I3. apply last_sym in I4. rewrite sgn_neg in I3, I4. cbn [negb] in I3, I4.
      eexists. split; [reflexivity|]. exists k2. cbn [t_low t_up t_ix t_z t_c]. do 7 (split; [assumption|]). intros _. split; [exact Al2|]. split; [exact Au2|]. split; [|exact I4].
      unfold advs in Ad2. rewrite D2, Nat.eqb_refl in Ad2. cbn [andb] in Ad2. apply andb_false_iff in Ad2 as [Ad2|Ad2].
      * apply Nat.ltb_ge in Ad2. apply (both_single i k2 (nth c2 z2 0)); try assumption; lia.
      * apply cmp_R_false in Ad2. exact (pos_lt _ _ Ad2).
    + rewrite (advance_id true yup ylo fup flo (h_c lo') i up' lo' ix z c k); try assumption; [|lia|].
      2:{ unfold advs. rewrite (proj2 (Nat.eqb_neq _ _) D'). reflexivity. }
      cbn [bind]. eexists. split; [reflexivity|]. exists k. cbn [t_low t_up t_ix t_z t_c]. do 7 (split; [assumption|]). intros _. split; [exact Al|]. split; [exact Au|]. split; [|exact La].
      destruct Dl as [Dl|(_ & _ & ->)]; [|lia]. destruct (HL Dl) as (D1 & D2 & D3 & D4). destruct (Fl D1) as (_ & Fl2). destruct (Fu D2) as (_ & Fu2).
      fold l u. rewrite (Fl2 ltac:(lia)), (Fu2 ltac:(lia)). exact D3.
Qed.

(** the end of the main loop: the lower hull is one segment, which completes the string *)
Lemma end_R t : (1 <= n)%nat -> flo n = fup n -> tinv n t -> let lo := t_low t in h_c lo = (h_s lo + 1)%nat /\
  let c := (t_c t + 1)%nat in let ix := upd (t_ix t) c n in let z := upd (t_z t) c (flo n) in chn (sgn false) flo fup ix z c /\ nth 0 z 0 = 0.
Proof.
  intros Hn He (k & C & S1 & S2 & H1 & H2 & Hc & Hz & HL). set (ix := t_ix t) in *. set (z := t_z t) in *. set (c := t_c t) in *. set (lo := t_low t) in *. set (up := t_up t) in *. cbn zeta in *.
  destruct (HL Hn) as (A1 & A2 & A3 & A4). pose proof (hsafe_gap _ _ _ _ S1) as G1. pose proof (csafe_gap _ _ _ _ _ C) as Gc. assert (Hk : (k < n)%nat) by lia.
  pose proof (INR_lt k n Hk) as P. pose proof (hul_first n (sgn true) fup _ k n up (sgn_cases true) S2 A2 H2) as Fu.
  pose proof (Fu n ltac:(lia)) as Fn. unfold sgn in Fn. pose proof (Rmult_le_compat_r _ _ _ (Rlt_le _ _ P) A3) as A3'.
  assert (D : h_c lo = (h_s lo + 1)%nat).
  { destruct (Nat.eq_dec (h_c lo) (h_s lo + 1)) as [D|D]; [exact D|exfalso]. pose proof (hul_strict n (sgn false) flo _ k n lo (sgn_cases false) S1 ltac:(lia) H1) as Q. unfold sgn in Q. lra. }
  split; [exact D|]. pose proof (hul_single _ _ _ _ _ _ _ _ S1 D H1) as El. set (l := slp lo (h_s lo + 1)) in *. set (u := slp up (h_s up + 1)) in *.
  destruct (chn_app n (sgn false) flo fup ix z c k n (flo n) l C ltac:(lia) El Hc) as (_ & Hc').
  - unfold sgn in *. destruct A4 as [A4|[(A4 & A5)|(A4 & A5)]]; [left; exact A4|right; left; split; [exact A4|lra]|right; right; split; [exact A4|lra]].
  - intros j Hj. replace (flo n + l * (INR j - INR n)) with (nth c z 0 + l * (INR j - INR k)) by lra.
    pose proof (hul_first n (sgn false) flo _ k n lo (sgn_cases false) S1 A1 H1 j ltac:(lia)) as Q1. fold l in Q1. pose proof (Fu j ltac:(lia)) as Q2. fold u in Q2. unfold sgn in *.
    pose proof (INR_lt k j ltac:(lia)) as Pj. pose proof (Rmult_le_compat_r _ _ _ (Rlt_le _ _ Pj) A3). lra.
  - split; [exact Hc'|]. rewrite nth_upd_neq by lia. exact Hz.
Qed.

End Taut.

(** ** the output *)
(** partial sums *)
Definition cum (x : list R) (j : nat) : R := sm j (fun i => nth i x 0).
Lemma tube_R (first : R) fl (w : list R) (i : nat) : w <> [] -> (1 <= i <= length w)%nat ->
  tube (K:=RN) first fl w i = (if Nat.eqb i (length w) then fl (first - nth 0 w 0 + cum w i) else first - nth 0 w 0 + cum w i).
Proof.
  intros Hne Hi. assert (G : forall j, @eq R (acc (K:=RN) first w j) (first - nth 0 w 0 + cum w (S j))).
  { induction j as [|j IH]; [cbn; ring|]. eapply eq_trans; [exact (f_equal (fun a => a + nth (S j) w 0) IH)|]. unfold cum. cbn [sm]. ring. }
  destruct i as [|i]; [lia|]. unfold tube. cbn [pred Nat.sub]. rewrite ?Nat.sub_0_r. rewrite (G i). reflexivity.
Qed.
(** the string is the partial sum of its slopes *)
Lemma string_cum n ix (z : list R) c (x : list R) : csafe (K:=RN) n ix z c n -> nth 0 z 0 = 0 ->
  (forall t j, (1 <= t <= c)%nat -> (nth (t - 1) ix 0 <= j < nth t ix 0)%nat -> nth j x 0 = sl ix z t) ->
  forall t j, (t < c)%nat -> (nth t ix 0 < j <= nth (S t) ix 0)%nat -> cum x j = nth (S t) z 0 + sl ix z (S t) * (INR j - INR (nth (S t) ix 0%nat)).
Proof.
  intros C Hz Hx. pose proof (csafe_incr _ _ _ _ _ C) as Hinc. destruct C as (M1 & M2 & M0 & M3 & Mi).
  assert (Sg : forall t, (t < c)%nat -> sl ix z (S t) * (INR (nth (S t) ix 0%nat) - INR (nth t ix 0%nat)) = nth (S t) z 0 - nth t z 0).
  { intros t Ht. unfold sl. replace (S t - 1)%nat with t by lia. field. pose proof (INR_lt _ _ (Mi t Ht)). lra. }
  assert (Inn : forall t, (t < c)%nat -> cum x (nth t ix 0%nat) = nth t z 0 -> forall d, (nth t ix 0 + d <= nth (S t) ix 0)%nat -> cum x (nth t ix 0 + d)%nat = nth t z 0 + sl ix z (S t) * INR d).
  { intros t Ht E d. induction d as [|d IH]; intros Hd; [rewrite Nat.add_0_r, E; cbn; ring|]. replace (nth t ix 0 + S d)%nat with (S (nth t ix 0%nat + d)) by lia. unfold cum. cbn [sm]. fold (cum x (nth t ix 0 + d)%nat).
    rewrite IH by lia. rewrite (Hx (S t)); [|lia|replace (S t - 1)%nat with t by lia; lia]. rewrite S_INR. ring. }
  assert (Kn : forall t, (t <= c)%nat -> cum x (nth t ix 0%nat) = nth t z 0).
  { induction t as [|t IH]; intros Ht; [rewrite M0, Hz; reflexivity|]. specialize (IH ltac:(lia)). pose proof (Mi t ltac:(lia)) as Hlt.
    pose proof (Inn t ltac:(lia) IH (nth (S t) ix 0 - nth t ix 0)%nat ltac:(lia)) as Q. replace (nth t ix 0 + (nth (S t) ix 0 - nth t ix 0))%nat with (nth (S t) ix 0%nat) in Q by lia.
    rewrite Q, minus_INR by lia. pose proof (Sg t ltac:(lia)). lra. }
  intros t j Ht Hj. pose proof (Inn t Ht (Kn t ltac:(lia)) (j - nth t ix 0)%nat ltac:(lia)) as Q. replace (nth t ix 0 + (j - nth t ix 0))%nat with j in Q by lia. rewrite Q, minus_INR by lia. pose proof (Sg t Ht). lra.
Qed.

Lemma prox_tv1d_R (pinf ninf : R) (w : list R) (step : R) : w <> [] -> 0 <= step -> exists p : list R, prox_tv1d (K:=RN) pinf ninf w step = Ok p /\ length p = length w /\
  exists P : nat -> R, P 0%nat = 0 /\ P (length w) = 0 /\ (forall j, (j < length w)%nat -> nth j w 0 - nth j p 0 = P j - P (S j)) /\
  (forall j, (S j < length w)%nat -> Rabs (P (S j)) <= step /\ P (S j) * (nth (S j) p 0 - nth j p 0) = step * Rabs (nth (S j) p 0 - nth j p 0)).
Proof.
  intros Hne Hs. set (n := length w). assert (Hn : (1 <= n)%nat) by (unfold n; destruct w; [congruence|cbn; lia]).
  set (flo := tube (K:=RN) (nth 0 w 0 - step) (fun a => a + step) w). set (fup := tube (K:=RN) (nth 0 w 0 + step) (fun a => a - step) w).
  assert (Flo : forall j, (1 <= j <= n)%nat -> @eq R (flo j) (if Nat.eqb j n then cum w n else cum w j - step)).
  { intros j Hj. eapply eq_trans; [exact (tube_R _ _ _ _ Hne Hj)|]. fold n. destruct (Nat.eqb_spec j n) as [->|D]; ring. }
  assert (Fup : forall j, (1 <= j <= n)%nat -> @eq R (fup j) (if Nat.eqb j n then cum w n else cum w j + step)).
  { intros j Hj. eapply eq_trans; [exact (tube_R _ _ _ _ Hne Hj)|]. fold n. destruct (Nat.eqb_spec j n) as [->|D]; ring. }
  assert (Hle : forall j, (j <= n)%nat -> flo j <= fup j).
  { intros j Hj. destruct j as [|j]; [apply Rle_refl|]. rewrite Flo, Fup by lia. destruct (Nat.eqb (S j) n); lra. }
  destruct (low_tv1d_run (K:=RN) pinf ninf step w (tinv n flo fup) Hne) as (t & ix & z & out & E & Tn & Lo & C & F1 & F2 & Ho); cbn zeta.
  - intros ylo yup i t Hl Hu Hi Ti. apply (step_R n flo fup ylo yup Hl Hu); [reflexivity|reflexivity|exact Hle|exact Hi|exact Ti].
  - exists 0%nat. destruct (init_safe (K:=RN) pinf ninf n) as (k & C0 & S1 & S2). assert (Ek : k = 0%nat) by (apply hsafe_gap in S1; lia). rewrite Ek in *. cbn zeta.
    split; [exact C0|]. split; [exact S1|]. split; [exact S2|]. unfold init_taut. cbn [t_low t_up t_ix t_z t_c h_s h_c].
    split; [split; [cbn [h_s h_c]; intros; lia|]; split; [cbn [h_s h_c]; intros; lia|cbn [h_s h_c]; intros; lia]|].
    split; [split; [cbn [h_s h_c]; intros; lia|]; split; [cbn [h_s h_c]; intros; lia|cbn [h_s h_c]; intros; lia]|].
    split; [split; intros; lia|]. split; [reflexivity|]. intros; lia.
  - intros t (k & C & S1 & S2 & _). exists k. auto.
  - assert (EW : @length RN w = n) by reflexivity. rewrite EW in *. destruct (end_R n flo fup t Hn) as (D & Hc & Hz); [rewrite Flo, Fup, !Nat.eqb_refl by lia; reflexivity|exact Tn|]. cbn zeta in Hc, Hz.
    assert (D1 : (h_c (t_low t) - h_s (t_low t) = 1)%nat) by lia. rewrite D1 in *. set (c := (t_c t + 1)%nat) in *.
    assert (Tix : forall j, (j <= c)%nat -> nth j (upd (t_ix t) c n) 0%nat = nth j ix 0%nat /\ @eq R (@nth R j (upd (t_z t) c (flo n)) 0) (@nth R j z 0)).
    { destruct Tn as (k & C0 & S1 & _). pose proof (csafe_gap _ _ _ _ _ C0) as G0. pose proof (hsafe_gap _ _ _ _ S1) as G1. destruct C0 as (M1 & M2 & _). pose proof M2 as M2b; change (@length R (t_z t) = S n) in M2. destruct S1 as (_ & _ & _ & _ & _ & S1 & _).
      intros j Hj. destruct (Nat.eq_dec j c) as [->|N].
      - destruct (F2 1%nat ltac:(lia)) as (F2a & F2b). rewrite <- D, S1 in F2a, F2b. split; [rewrite nth_upd_eq by (unfold c; lia); symmetry; exact F2a|eapply eq_trans; [apply nth_upd_eq; first [rewrite M2b|rewrite M2]; unfold c; lia|symmetry; exact F2b]].
      - destruct (F1 j ltac:(lia)) as (F1a & F1b). split; [rewrite nth_upd_neq by lia; symmetry; exact F1a|eapply eq_trans; [apply nth_upd_neq; lia|symmetry; exact F1b]]. }
    set (ix0 := upd (t_ix t) c n) in *. set (z0 := upd (t_z t) c (flo n)) in *.
    assert (Esl : forall u, (1 <= u <= c)%nat -> sl ix0 z0 u = sl ix z u). { intros u Hu. unfold sl. destruct (Tix u ltac:(lia)) as (-> & ->). destruct (Tix (u - 1)%nat ltac:(lia)) as (-> & ->). reflexivity. }
    assert (Ess : forall u, seg_slope (K:=RN) ix z u = sl ix z u) by (intros u; unfold seg_slope, sl; apply dv_R).
    set (g := fun j => match nth j out None with Some a => a | None => 0 end).
    assert (Hg : forall j, (j < length out)%nat -> nth j out None = Some (g j)).
    { intros j Hj. unfold g. destruct (seg_of _ _ _ _ C j ltac:(lia)) as (u & Hu & B). rewrite (Ho u j Hu B). reflexivity. }
    set (x := map g (seq 0 n)). assert (Lx : length x = n) by (unfold x; rewrite map_length, seq_length; reflexivity).
    assert (Nx : forall u j, (1 <= u <= c)%nat -> (nth (u - 1) ix 0 <= j < nth u ix 0)%nat -> @eq R (@nth R j x 0) (sl ix z u)).
    { intros u j Hu Hj. assert (Hjn : (j < n)%nat). { pose proof (csafe_incr _ _ _ _ _ C) as Hinc. destruct C as (_ & _ & _ & M3 & _). destruct (Nat.eq_dec u c) as [->|N]; [lia|]. specialize (Hinc u c ltac:(lia) ltac:(lia)). lia. }
      unfold x. rewrite (nth_indep _ 0 (g 0%nat)) by (rewrite map_length, seq_length; exact Hjn). rewrite map_nth, seq_nth by exact Hjn. cbn. unfold g. rewrite (Ho u j Hu Hj). apply Ess. }
    exists x. split; [unfold prox_tv1d; rewrite E; cbn [bind]; rewrite (written_ok (K:=RN) out g Hg); unfold x; rewrite Lo; reflexivity|]. split; [exact Lx|].
    assert (Z0 : @eq R (@nth R 0 z 0) 0) by (destruct (Tix 0%nat ltac:(lia)) as (_ & Q); eapply eq_trans; [symmetry; exact Q|exact Hz]).
    pose proof (string_cum n ix z c x C Z0 Nx) as SC. destruct Hc as (T1 & T2). destruct (C) as (M1 & M2 & M0 & M3 & Mi). unfold sgn in T1, T2.
    assert (Seg : forall j, (1 <= j <= n)%nat -> exists u, (u < c)%nat /\ (nth u ix 0 < j <= nth (S u) ix 0)%nat).
    { intros j Hj. destruct (seg_of _ _ _ _ C (j - 1)%nat ltac:(lia)) as (u & Hu & B). exists (u - 1)%nat. split; [lia|]. replace (S (u - 1)) with u by lia. lia. }
    assert (Tb : forall j, (1 <= j <= n)%nat -> flo j <= cum x j <= fup j).
    { intros j Hj. destruct (Seg j Hj) as (u & Hu & B). rewrite (SC u j Hu B). destruct (Tix u ltac:(lia)) as (Q1 & Q2). destruct (Tix (S u) ltac:(lia)) as (Q3 & Q4).
      specialize (T1 u j Hu). rewrite Q1, Q3, Q4, Esl in T1 by lia. specialize (T1 B). lra. }
    exists (fun j => cum x j - cum w j). split; [unfold cum; cbn; ring|]. split.
    { pose proof (Tb n ltac:(lia)) as Q. rewrite Flo, Fup, Nat.eqb_refl in Q by lia. fold n. lra. }
    split; [intros j Hj; unfold cum; cbn [sm]; ring|]. intros j Hj. fold n in Hj. pose proof (Tb (S j) ltac:(lia)) as Q. rewrite Flo, Fup in Q by lia. rewrite (proj2 (Nat.eqb_neq (S j) n)) in Q by lia.
    split; [apply Rabs_le; lra|]. destruct (Seg (S j) ltac:(lia)) as (u & Hu & B). rewrite (Nx (S u) j) by (try replace (S u - 1)%nat with u by lia; lia).
    destruct (Nat.eq_dec (S j) (nth (S u) ix 0%nat)) as [D'|D'].
    2:{ rewrite (Nx (S u) (S j)) by (try replace (S u - 1)%nat with u by lia; lia). replace (sl ix z (S u) - sl ix z (S u)) with 0 by ring. rewrite Rabs_R0. ring. }
    assert (Hu' : (S u < c)%nat). { destruct (Nat.eq_dec (S u) c) as [E'|]; [|lia]. rewrite E', M3 in D'. lia. }
    pose proof (Mi (S u) Hu') as Hlt. rewrite (Nx (S (S u)) (S j)) by (try replace (S (S u) - 1)%nat with (S u) by lia; lia).
    assert (Cj : cum x (S j) = @nth R (S u) z 0). { rewrite (SC u (S j) Hu B), <- D'. ring. } rewrite Cj.
    specialize (T2 (S u) ltac:(lia)). destruct (Tix (S u) ltac:(lia)) as (Q3 & Q4). rewrite Q3, Q4, !Esl in T2 by lia. rewrite <- D', Flo, Fup in T2 by lia. rewrite (proj2 (Nat.eqb_neq (S j) n)) in T2 by lia.
    destruct T2 as [(T2 & T3)|(T2 & T3)]; rewrite T2.
    + rewrite Rabs_right by lra. ring.
    + rewrite Rabs_left1 by lra. ring.
Qed.
Lemma prox_tv1d_prox (pinf ninf : R) (w : list R) (step : R) : w <> [] -> 0 <= step -> exists p : list R, prox_tv1d (K:=RN) pinf ninf w step = Ok p /\ is_prox tv step w p.
Proof.
  intros Hne Hs. destruct (prox_tv1d_R pinf ninf w step Hne Hs) as (p & E & L & P & P0 & Pn & Pd & Pk). exists p. split; [exact E|]. apply prox_intro; [exact L|].
  intros y Ly. apply (tv_kkt w p step P L P0 Pn Pd Pk y Ly).
Qed.
