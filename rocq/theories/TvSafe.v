(** * The taut string routine, every arithmetic: loops as pure steps, index safety *)
From Coq Require Import ZArith Bool List Lia.
From Verif Require Import Num Vec ModelPenalty RVec ModelTv.
Import ListNotations.

Section Safe.
Context {K : Num}.
Local Open Scope nat_scope.
Local Notation dv a i j := (ndiv K a (nofZ K (Z.of_nat i - Z.of_nat j))).

Definition filled (y : list (option K)) (n : nat) (f : nat -> K) : Prop :=
  length y = S n /\ forall i, i <= n -> nth i y None = Some (f i).
Lemma rd_ok y n f i : filled y n f -> i <= n -> rd y i = Ok (f i).
Proof. intros [L H] Hi. unfold rd. rewrite (get_ok y i None) by lia. cbn. rewrite H by lia. reflexivity. Qed.
Lemma idiv_ok (a : K) i j : i <> j -> idiv a i j = Ok (dv a i j).
Proof. intros H. unfold idiv. apply Nat.eqb_neq in H. rewrite H. reflexivity. Qed.

(** hull [h] starts at index k, ends at index i *)
Definition hsafe (n : nat) (h : hull K) (k i : nat) : Prop :=
  length (h_idx h) = S n /\ length (h_slp h) = S n /\ h_s h <= h_c h /\ h_s h <= k /\ nth (h_s h) (h_idx h) 0 = k /\
  nth (h_c h) (h_idx h) 0 = i /\ (forall t, h_s h <= t < h_c h -> nth t (h_idx h) 0 < nth (S t) (h_idx h) 0).
Definition csafe (n : nat) (ix : list nat) (z : list K) (c k : nat) : Prop :=
  length ix = S n /\ length z = S n /\ nth 0 ix 0 = 0 /\ nth c ix 0 = k /\ (forall t, t < c -> nth t ix 0 < nth (S t) ix 0).

Lemma incr_gap (l : list nat) s c : (forall t, s <= t < c -> nth t l 0 < nth (S t) l 0) -> forall t u, s <= t -> t <= u -> u <= c -> nth t l 0 + (u - t) <= nth u l 0.
Proof.
  intros H t u Ht Htu Hu. induction u as [|u IH]; [replace t with 0 by lia; lia|].
  destruct (Nat.eq_dec t (S u)) as [->|N]; [lia|]. specialize (H u ltac:(lia)). lia.
Qed.
Lemma hsafe_gap n h k i : hsafe n h k i -> h_c h - h_s h <= i - k /\ k <= i /\ h_c h <= i.
Proof. intros (_ & _ & Hs & Hk & E1 & E2 & H). pose proof (incr_gap _ _ _ H (h_s h) (h_c h) ltac:(lia) ltac:(lia) ltac:(lia)). lia. Qed.
Lemma csafe_gap n ix z c k : csafe n ix z c k -> c <= k.
Proof. intros (_ & _ & E0 & E & H). pose proof (incr_gap ix 0 c ltac:(intros; apply H; lia) 0 c ltac:(lia) ltac:(lia) ltac:(lia)). lia. Qed.
Lemma csafe_incr n ix z c k : csafe n ix z c k -> forall t u, t < u -> u <= c -> nth t ix 0 < nth u ix 0.
Proof. intros (_ & _ & E0 & E & H) t u A B. pose proof (incr_gap ix 0 c ltac:(intros; apply H; lia) t u ltac:(lia) ltac:(lia) ltac:(lia)). lia. Qed.

(** one round of [pop] *)
Definition mrg (f : nat -> K) (i : nat) (zk : K) (k : nat) (h : hull K) : hull K :=
  let c' := h_c h - 1 in
  let v := if Nat.ltb (h_s h + 1) c' then dv (nsub K (f i) (f (nth (c' - 1) (h_idx h) 0))) i (nth (c' - 1) (h_idx h) 0)
           else dv (nsub K (f i) zk) i k in
  mkH (upd (h_idx h) c' i) (upd (h_slp h) c' v) (h_s h) c'.
Definition pops (up : bool) (h : hull K) : bool :=
  Nat.ltb (h_s h + 1) (h_c h) && cmp up (nth (h_c h - 1) (h_slp h) n0) (nth (h_c h) (h_slp h) n0).
Lemma mrg_safe n f i zk k h : hsafe n h k i -> h_s h + 1 < h_c h -> hsafe n (mrg f i zk k h) k i /\ h_s (mrg f i zk k h) < h_c (mrg f i zk k h).
Proof.
  intros S H. pose proof (hsafe_gap _ _ _ _ S) as G. destruct S as (L1 & L2 & Hs & Hk & E1 & E2 & Hi). unfold mrg, hsafe. cbn [h_idx h_slp h_s h_c].
  rewrite !upd_length. split; [|lia]. split; [exact L1|]. split; [exact L2|]. split; [lia|]. split; [exact Hk|].
  assert (Lc : h_c h - 1 < length (h_idx h)). { destruct (le_lt_dec (length (h_idx h)) (h_c h)) as [A|A]; [|lia]. rewrite (nth_overflow (h_idx h)) in E2 by lia. pose proof (Hi (h_c h - 1) ltac:(lia)) as B. replace (S (h_c h - 1)) with (h_c h) in B by lia. rewrite (nth_overflow (h_idx h) 0 (n:=h_c h)) in B by lia. lia. }
  split; [rewrite nth_upd_neq by lia; exact E1|]. split; [apply nth_upd_eq, Lc|].
  intros t Ht. rewrite (nth_upd_neq (h_idx h)) by lia. destruct (Nat.eq_dec (S t) (h_c h - 1)) as [E|N].
  - rewrite E, nth_upd_eq by exact Lc. pose proof (incr_gap _ _ _ Hi t (h_c h) ltac:(lia) ltac:(lia) ltac:(lia)). lia.
  - rewrite nth_upd_neq by lia. apply Hi. lia.
Qed.
Lemma pop_eq n fuel up y f i ix z c k h : filled y n f -> csafe n ix z c k -> hsafe n h k i -> i <= n ->
  pop (S fuel) up y i ix z c h = if pops up h then pop fuel up y i ix z c (mrg f i (nth c z n0) k h) else Ok h.
Proof.
  intros Hy C S Hi. pose proof (hsafe_gap _ _ _ _ S) as G. pose proof (csafe_gap _ _ _ _ _ C) as Gc. pose proof (mrg_safe n f i (nth c z n0) k h S) as Sm.
  destruct S as (L1 & L2 & Hs & Hk & E1 & E2 & Hn). destruct C as (M1 & M2 & _ & M3 & _).
  cbn [pop]. unfold pops. destruct (Nat.ltb_spec (h_s h + 1) (h_c h)) as [A|A]; [|reflexivity]. cbn [andb]. specialize (Sm A).
  replace (Nat.max (h_s h) (h_c h - 1)) with (h_c h - 1) by lia.
  rewrite (get_ok (h_slp h) (h_c h - 1) n0), (get_ok (h_slp h) (h_c h) n0) by lia. cbn [bind].
  destruct (cmp up _ _); [|reflexivity]. rewrite set_ok by lia. cbn [bind]. rewrite (rd_ok y n f) by assumption. cbn [bind].
  unfold mrg. destruct (Nat.ltb_spec (h_s h + 1) (h_c h - 1)) as [B|B].
  - rewrite (get_ok _ _ 0) by (rewrite upd_length; lia). cbn [bind]. rewrite nth_upd_neq by lia.
    pose proof (incr_gap _ _ _ Hn (h_c h - 1 - 1) (h_c h) ltac:(lia) ltac:(lia) ltac:(lia)) as Q.
    rewrite (rd_ok y n f) by (assumption || lia). cbn [bind]. rewrite idiv_ok by lia. cbn [bind]. rewrite set_ok by lia. reflexivity.
  - rewrite (get_ok z c n0), (get_ok ix c 0) by lia. cbn [bind]. rewrite M3. rewrite idiv_ok by lia. cbn [bind]. rewrite set_ok by lia. reflexivity.
Qed.
Lemma pop_run n up y f i ix z c k (P : hull K -> Prop) : filled y n f -> csafe n ix z c k -> i <= n ->
  (forall h, hsafe n h k i -> P h -> pops up h = true -> P (mrg f i (nth c z n0) k h)) ->
  forall fuel h, hsafe n h k i -> h_s h < h_c h -> h_c h <= fuel + h_s h -> P h ->
  exists h', pop fuel up y i ix z c h = Ok h' /\ hsafe n h' k i /\ h_s h' < h_c h' /\ h_s h' = h_s h /\ h_c h' <= h_c h /\ P h' /\ pops up h' = false.
Proof.
  intros Hy C Hi HP fuel. induction fuel as [|fuel IH]; intros h S Hc F Ph; [lia|].
  rewrite (pop_eq n fuel up y f i ix z c k h Hy C S Hi). destruct (pops up h) eqn:E.
  - assert (Q : h_s h + 1 < h_c h) by (unfold pops in E; apply andb_prop in E as [E _]; apply Nat.ltb_lt in E; lia).
    destruct (mrg_safe n f i (nth c z n0) k h S Q) as (S' & S''). destruct (IH (mrg f i (nth c z n0) k h) S' S'') as (h' & A1 & A2 & A3 & A4 & A5 & A6 & A7).
    + unfold mrg; cbn [h_c h_s]; lia.
    + apply HP; assumption.
    + exists h'. unfold mrg in A4, A5; cbn [h_c h_s] in A4, A5. repeat (split; [assumption || lia|]). assumption.
  - exists h. repeat (split; [assumption || lia || reflexivity|]). assumption.
Qed.
(** [push]: the hull with the new point *)
Definition psh (f : nat -> K) (i : nat) (h : hull K) : hull K :=
  mkH (upd (h_idx h) (h_c h + 1) i) (upd (h_slp h) (h_c h + 1) (nsub K (f i) (f (i - 1)))) (h_s h) (h_c h + 1).
Lemma psh_safe n f i k h : hsafe n h k (i - 1) -> 1 <= i <= n -> hsafe n (psh f i h) k i /\ h_s (psh f i h) < h_c (psh f i h).
Proof.
  intros S H. pose proof (hsafe_gap _ _ _ _ S) as G. destruct S as (L1 & L2 & Hs & Hk & E1 & E2 & Hi). unfold psh, hsafe. cbn [h_idx h_slp h_s h_c].
  rewrite !upd_length. split; [|lia]. split; [exact L1|]. split; [exact L2|]. split; [lia|]. split; [exact Hk|].
  split; [rewrite nth_upd_neq by lia; exact E1|]. split; [apply nth_upd_eq; lia|].
  intros t Ht. rewrite (nth_upd_neq (h_idx h)) by lia. destruct (Nat.eq_dec (S t) (h_c h + 1)) as [E|N].
  - rewrite E, nth_upd_eq by lia. replace t with (h_c h) by lia. lia.
  - rewrite nth_upd_neq by lia. apply Hi. lia.
Qed.
Lemma push_run n up y f i ix z c k h (P : hull K -> Prop) : filled y n f -> csafe n ix z c k -> 1 <= i <= n -> hsafe n h k (i - 1) ->
  P (psh f i h) -> (forall h, hsafe n h k i -> P h -> pops up h = true -> P (mrg f i (nth c z n0) k h)) ->
  exists h', push up y i ix z c h = Ok h' /\ hsafe n h' k i /\ h_s h' < h_c h' /\ h_s h' = h_s h /\ P h' /\ pops up h' = false.
Proof.
  intros Hy C Hi S P0 HP. destruct (psh_safe n f i k h S Hi) as (S1 & S2). pose proof (hsafe_gap _ _ _ _ S) as G.
  destruct S as (L1 & L2 & _). unfold push. rewrite set_ok by lia. cbn [bind]. rewrite !(rd_ok y n f) by (assumption || lia). cbn [bind]. rewrite set_ok by lia. cbn [bind].
  destruct (pop_run n up y f i ix z c k P Hy C ltac:(lia) HP (S (h_c h + 1)) (psh f i h) S1 S2) as (h' & A1 & A2 & A3 & A4 & A5 & A6 & A7); [unfold psh; cbn [h_c h_s]; lia|exact P0|].
  exists h'. split; [exact A1|]. auto.
Qed.

(** one round of [advance] *)
Definition a_k (h2 : hull K) : nat := nth (h_s h2 + 1) (h_idx h2) 0.
Definition a_h1 (f1 f2 : nat -> K) (i : nat) (h1 h2 : hull K) : hull K :=
  mkH (upd (h_idx h1) (h_s h1) (a_k h2)) (upd (h_slp h1) (h_c h1) (dv (nsub K (f1 i) (f2 (a_k h2))) i (a_k h2))) (h_s h1) (h_c h1).
Definition a_h2 (h2 : hull K) : hull K := mkH (h_idx h2) (h_slp h2) (h_s h2 + 1) (h_c h2).
Definition advs (up : bool) (h1 h2 : hull K) : bool :=
  Nat.eqb (h_c h1) (h_s h1 + 1) && Nat.ltb (h_s h2 + 1) (h_c h2) && cmp (negb up) (nth (h_c h1) (h_slp h1) n0) (nth (h_s h2 + 1) (h_slp h2) n0).
Lemma advance_safe1 n f1 f2 i h1 h2 ix z c k : csafe n ix z c k -> hsafe n h1 k i -> hsafe n h2 k i -> i <= n -> h_c h1 = h_s h1 + 1 -> h_s h2 + 1 < h_c h2 ->
  k < a_k h2 < i /\ hsafe n (a_h1 f1 f2 i h1 h2) (a_k h2) i /\ hsafe n (a_h2 h2) (a_k h2) i /\ csafe n (upd ix (c + 1) (a_k h2)) (upd z (c + 1) (f2 (a_k h2))) (c + 1) (a_k h2).
Proof.
  intros C S1 S2 Hn A B. pose proof (hsafe_gap _ _ _ _ S1) as G1. pose proof (hsafe_gap _ _ _ _ S2) as G2. pose proof (csafe_gap _ _ _ _ _ C) as Gc.
  destruct S1 as (L1 & L2 & Hs & Hk & E1 & E2 & Hi). destruct S2 as (L1' & L2' & Hs' & Hk' & E1' & E2' & Hi'). destruct C as (M1 & M2 & M0 & M3 & Mi).
  assert (Q : k < a_k h2 < i).
  { unfold a_k. pose proof (incr_gap _ _ _ Hi' (h_s h2) (h_s h2 + 1) ltac:(lia) ltac:(lia) ltac:(lia)). pose proof (incr_gap _ _ _ Hi' (h_s h2 + 1) (h_c h2) ltac:(lia) ltac:(lia) ltac:(lia)). lia. }
  split; [exact Q|]. split; [|split].
  - unfold a_h1, hsafe. cbn [h_idx h_slp h_s h_c]. rewrite !upd_length. split; [exact L1|]. split; [exact L2|]. split; [lia|]. split; [lia|].
    split; [apply nth_upd_eq; lia|]. split; [rewrite nth_upd_neq by lia; exact E2|]. intros t Ht. replace t with (h_s h1) by lia. rewrite nth_upd_eq by lia. rewrite nth_upd_neq by lia.
    replace (S (h_s h1)) with (h_c h1) by lia. lia.
  - unfold a_h2, hsafe. cbn [h_idx h_slp h_s h_c]. split; [exact L1'|]. split; [exact L2'|]. split; [lia|].
    split; [lia|]. split; [reflexivity|]. split; [exact E2'|]. intros t Ht. apply Hi'. lia.
  - unfold csafe. rewrite !upd_length. split; [exact M1|]. split; [exact M2|]. split; [rewrite nth_upd_neq by lia; exact M0|]. split; [apply nth_upd_eq; lia|].
    intros t Ht. rewrite nth_upd_neq by lia. destruct (Nat.eq_dec t c) as [->|N].
    + replace (S c) with (c + 1) by lia. rewrite nth_upd_eq by lia. lia.
    + rewrite nth_upd_neq by lia. apply Mi. lia.
Qed.
Lemma advance_eq n fuel up y1 y2 f1 f2 i h1 h2 ix z c k : filled y1 n f1 -> filled y2 n f2 -> csafe n ix z c k -> hsafe n h1 k i -> hsafe n h2 k i -> i <= n ->
  advance (S fuel) up y1 y2 i h1 h2 ix z c =
  if advs up h1 h2 then advance fuel up y1 y2 i (a_h1 f1 f2 i h1 h2) (a_h2 h2) (upd ix (c + 1) (a_k h2)) (upd z (c + 1) (f2 (a_k h2))) (c + 1)
  else Ok (h1, h2, ix, z, c).
Proof.
  intros Hy1 Hy2 C S1 S2 Hi. pose proof (fun A B => advance_safe1 n f1 f2 i h1 h2 ix z c k C S1 S2 Hi A B) as Q.
  pose proof (hsafe_gap _ _ _ _ S1) as G1. pose proof (hsafe_gap _ _ _ _ S2) as G2. pose proof (csafe_gap _ _ _ _ _ C) as Gc.
  destruct S1 as (L1 & L2 & _). destruct S2 as (L1' & L2' & _). destruct C as (M1 & M2 & _).
  cbn [advance]. unfold advs. destruct (Nat.eqb_spec (h_c h1) (h_s h1 + 1)) as [A|A]; [|reflexivity]. destruct (Nat.ltb_spec (h_s h2 + 1) (h_c h2)) as [B|B]; [|reflexivity]. cbn [andb].
  destruct (Q A B) as (Q1 & _). rewrite (get_ok (h_slp h1) _ n0), (get_ok (h_slp h2) _ n0) by lia. cbn [bind].
  destruct (cmp (negb up) _ _); [|reflexivity]. rewrite (get_ok (h_idx h2) _ 0) by lia. cbn [bind]. fold (a_k h2).
  rewrite (set_ok ix) by lia. cbn [bind]. rewrite (rd_ok y2 n f2) by (assumption || lia). cbn [bind]. rewrite (set_ok z) by lia. cbn [bind].
  rewrite (set_ok (h_idx h1)) by lia. cbn [bind]. rewrite (rd_ok y1 n f1) by (assumption || lia). cbn [bind]. rewrite idiv_ok by lia. cbn [bind]. rewrite (set_ok (h_slp h1)) by lia. reflexivity.
Qed.
Lemma advance_run n up y1 y2 f1 f2 i (P : hull K -> hull K -> list nat -> list K -> nat -> nat -> Prop) : filled y1 n f1 -> filled y2 n f2 -> i <= n ->
  (forall h1 h2 ix z c k, csafe n ix z c k -> hsafe n h1 k i -> hsafe n h2 k i -> h_s h1 < h_c h1 -> P h1 h2 ix z c k -> advs up h1 h2 = true ->
     P (a_h1 f1 f2 i h1 h2) (a_h2 h2) (upd ix (c + 1) (a_k h2)) (upd z (c + 1) (f2 (a_k h2))) (c + 1) (a_k h2)) ->
  forall fuel h1 h2 ix z c k, csafe n ix z c k -> hsafe n h1 k i -> hsafe n h2 k i -> h_s h1 < h_c h1 -> h_s h2 < h_c h2 -> h_c h2 <= fuel + h_s h2 -> P h1 h2 ix z c k ->
  exists h1' h2' ix' z' c' k', advance fuel up y1 y2 i h1 h2 ix z c = Ok (h1', h2', ix', z', c') /\ csafe n ix' z' c' k' /\ hsafe n h1' k' i /\ hsafe n h2' k' i /\
    h_s h1' < h_c h1' /\ h_s h2' < h_c h2' /\ P h1' h2' ix' z' c' k' /\ advs up h1' h2' = false /\ (h_c h1' = h_s h1' + 1 <-> h_c h1 = h_s h1 + 1).
Proof.
  intros Hy1 Hy2 Hi HP fuel. induction fuel as [|fuel IH]; intros h1 h2 ix z c k C S1 S2 A1 A2 F Ph; [lia|].
  rewrite (advance_eq n fuel up y1 y2 f1 f2 i h1 h2 ix z c k Hy1 Hy2 C S1 S2 Hi). destruct (advs up h1 h2) eqn:E.
  - assert (Q : h_c h1 = h_s h1 + 1 /\ h_s h2 + 1 < h_c h2) by (unfold advs in E; apply andb_prop in E as [E _]; apply andb_prop in E as [E1 E2]; apply Nat.eqb_eq in E1; apply Nat.ltb_lt in E2; lia).
    destruct Q as (Q1 & Q2). destruct (advance_safe1 n f1 f2 i h1 h2 ix z c k C S1 S2 Hi Q1 Q2) as (B0 & B1 & B2 & B3).
    destruct (IH _ _ _ _ _ _ B3 B1 B2) as (h1' & h2' & ix' & z' & c' & k' & D1 & D2 & D3 & D4 & D5 & D6 & D7 & D8 & D9).
    + cbn [a_h1 h_s h_c]. lia.
    + cbn [a_h2 h_s h_c]. lia.
    + cbn [a_h2 h_s h_c]. lia.
    + apply HP with (k := k); assumption.
    + exists h1', h2', ix', z', c', k'. cbn [a_h1 h_s h_c] in D9. repeat (split; [assumption|]). exact D9.
  - exists h1, h2, ix, z, c, k. repeat (split; [assumption || reflexivity|]). reflexivity.
Qed.

(** the state after iteration i *)
Definition tsafe (n : nat) (t : taut K) (i : nat) : Prop :=
  exists k, csafe n (t_ix t) (t_z t) (t_c t) k /\ hsafe n (t_low t) k i /\ hsafe n (t_up t) k i.
Lemma step_safe n ylo yup flo fup i t : filled ylo n flo -> filled yup n fup -> 1 <= i <= n -> tsafe n t (i - 1) ->
  exists t', taut_step ylo yup i t = Ok t' /\ tsafe n t' i.
Proof.
  intros Hl Hu Hi (k & C & S1 & S2). unfold taut_step.
  destruct (push_run n false ylo flo i _ _ _ k (t_low t) (fun _ => True) Hl C Hi S1) as (lo & -> & A1 & A2 & _); [auto|auto|].
  destruct (push_run n true yup fup i _ _ _ k (t_up t) (fun _ => True) Hu C Hi S2) as (u & -> & B1 & B2 & _); [auto|auto|]. cbn [bind].
  destruct (advance_run n false ylo yup flo fup i (fun _ _ _ _ _ _ => True) Hl Hu ltac:(lia) ltac:(auto) (S (h_c u)) lo u _ _ _ k C A1 B1 A2 B2 ltac:(lia) I)
    as (lo' & u' & ix & z & c & k' & -> & C' & A1' & B1' & A2' & B2' & _). cbn [bind].
  destruct (advance_run n true yup ylo fup flo i (fun _ _ _ _ _ _ => True) Hu Hl ltac:(lia) ltac:(auto) (S (h_c lo')) u' lo' _ _ _ k' C' B1' A1' B2' A2' ltac:(lia) I)
    as (u'' & lo'' & ix' & z' & c' & k'' & -> & C'' & B1'' & A1'' & _). cbn [bind].
  eexists. split; [reflexivity|]. exists k''. auto.
Qed.
Lemma loop_run n ylo yup (Q : nat -> taut K -> Prop) t0 : filled ylo n (fun i => match nth i ylo None with Some a => a | None => n0 end) ->
  (forall i t, 1 <= i <= n -> Q (i - 1) t -> exists t', taut_step ylo yup i t = Ok t' /\ Q i t') -> Q 0 t0 ->
  exists t, forM (range 1 (S n)) (taut_step ylo yup) t0 = Ok t /\ Q n t.
Proof.
  intros _ H Q0. unfold range. replace (S n - 1) with n by lia.
  assert (G : forall m i t, 1 <= i -> i + m = S n -> Q (i - 1) t -> exists t', forM (seq i m) (taut_step ylo yup) t = Ok t' /\ Q n t').
  { induction m as [|m IH]; intros i t Hi E Qt; cbn [seq forM].
    - exists t. split; [reflexivity|]. replace n with (i - 1) by lia. exact Qt.
    - destruct (H i t ltac:(lia) Qt) as (t' & -> & Q'). cbn [bind]. apply IH; [lia|lia|]. replace (S i - 1) with i by lia. exact Q'. }
  apply G; [lia|lia|exact Q0].
Qed.

(** [flush]: index and z extended by the lower hull *)
Lemma flush_run n ylo flo t : filled ylo n flo -> tsafe n t n ->
  exists ix z, flush ylo t = Ok (ix, z, t_c t + h_c (t_low t) - h_s (t_low t)) /\ csafe n ix z (t_c t + (h_c (t_low t) - h_s (t_low t))) n /\
    (forall j, j <= t_c t -> nth j ix 0 = nth j (t_ix t) 0 /\ nth j z n0 = nth j (t_z t) n0) /\
    (forall i, 1 <= i <= h_c (t_low t) - h_s (t_low t) -> nth (t_c t + i) ix 0 = nth (h_s (t_low t) + i) (h_idx (t_low t)) 0 /\ nth (t_c t + i) z n0 = flo (nth (h_s (t_low t) + i) (h_idx (t_low t)) 0)).
Proof.
  intros Hy (k & C & S & _). unfold flush. set (lo := t_low t) in *. pose proof (hsafe_gap _ _ _ _ S) as G. pose proof (csafe_gap _ _ _ _ _ C) as Gc.
  destruct S as (L1 & L2 & Hs & Hk & E1 & E2 & Hinc). destruct C as (M1 & M2 & M0 & M3 & Mi). unfold range. replace (h_c lo - h_s lo + 1 - 1) with (h_c lo - h_s lo) by lia.
  set (d := h_c lo - h_s lo) in *.
  set (body := fun (i : nat) '(ix, z) => k <- get (h_idx lo) (h_s lo + i);; ix <- set ix (t_c t + i) k;; v <- rd ylo k;; z <- set z (t_c t + i) v;; Ok (ix, z)).
  set (I := fun m '(ix, z) => length ix = S n /\ length z = S n /\ (forall j, j <= t_c t -> nth j ix 0 = nth j (t_ix t) 0 /\ nth j z n0 = nth j (t_z t) n0) /\
     (forall i, 1 <= i <= m -> nth (t_c t + i) ix 0 = nth (h_s lo + i) (h_idx lo) 0 /\ nth (t_c t + i) z n0 = flo (nth (h_s lo + i) (h_idx lo) 0))).
  assert (GG : forall m i s, 1 <= i -> i + m = d + 1 -> I (i - 1) s -> exists s', forM (seq i m) body s = Ok s' /\ I d s').
  { induction m as [|m IH]; intros i s Hi E Is; cbn [seq forM].
    - exists s. split; [reflexivity|]. replace d with (i - 1) by lia. exact Is.
    - destruct s as [ix z]. destruct Is as (I1 & I2 & I3 & I4). unfold body at 1. rewrite (get_ok (h_idx lo) _ 0) by lia. cbn [bind]. rewrite (set_ok ix) by lia. cbn [bind].
      pose proof (incr_gap _ _ _ Hinc (h_s lo + i) (h_c lo) ltac:(lia) ltac:(lia) ltac:(lia)). rewrite (rd_ok ylo n flo) by (assumption || lia). cbn [bind]. rewrite (set_ok z) by lia. cbn [bind].
      apply IH; [lia|lia|]. replace (S i - 1) with i by lia. unfold I. rewrite !upd_length. split; [exact I1|]. split; [exact I2|]. split.
      + intros j Hj. rewrite !nth_upd_neq by lia. apply I3, Hj.
      + intros j Hj. destruct (Nat.eq_dec j i) as [->|N]; [rewrite !nth_upd_eq by lia; auto|]. rewrite !nth_upd_neq by lia. apply I4. lia. }
  destruct (GG d 1 (t_ix t, t_z t) ltac:(lia) ltac:(lia)) as ((ix & z) & E & I1 & I2 & I3 & I4); [unfold I; split; [exact M1|]; split; [exact M2|]; split; [auto|]; intros; lia|].
  exists ix, z. rewrite E. cbn [bind]. split; [reflexivity|]. split; [|split; [exact I3|exact I4]].
  assert (J : forall t0, t0 <= d -> nth (t_c t + t0) ix 0 = nth (h_s lo + t0) (h_idx lo) 0).
  { intros t0 Ht. destruct t0; [|apply I4; lia]. rewrite !Nat.add_0_r. destruct (I3 (t_c t) ltac:(lia)) as (-> & _). congruence. }
  unfold csafe. split; [exact I1|]. split; [exact I2|]. split; [destruct (I3 0 ltac:(lia)) as (-> & _); exact M0|]. split.
  - rewrite J by lia. unfold d. replace (h_s lo + (h_c lo - h_s lo)) with (h_c lo) by lia. exact E2.
  - intros j Hj. destruct (le_lt_dec (t_c t) j) as [A|A].
    + replace j with (t_c t + (j - t_c t)) by lia. replace (S (t_c t + (j - t_c t))) with (t_c t + S (j - t_c t)) by lia. rewrite !J by lia.
      replace (h_s lo + S (j - t_c t)) with (S (h_s lo + (j - t_c t))) by lia. apply Hinc. lia.
    + destruct (I3 j ltac:(lia)) as (-> & _). destruct (I3 (S j) ltac:(lia)) as (-> & _). apply Mi. lia.
Qed.

(** [emit] writes the slope of segment t on [ix (t-1), ix t) *)
Lemma fill_range a (lo hi : nat) (out : list (option K)) : lo <= hi -> hi <= length out ->
  exists o, forM (range lo hi) (fun j o => set o j (Some a)) out = Ok o /\ length o = length out /\
    forall j, nth j o None = if (lo <=? j) && (j <? hi) then Some a else nth j out None.
Proof.
  unfold range. remember (hi - lo) as m. revert lo out Heqm. induction m as [|m IH]; intros lo out E H H'; cbn [seq forM].
  - exists out. split; [reflexivity|]. split; [reflexivity|]. intros j. destruct (Nat.leb_spec lo j), (Nat.ltb_spec j hi); try reflexivity; lia.
  - rewrite set_ok by lia. cbn [bind]. destruct (IH (S lo) (upd out lo (Some a)) ltac:(lia) ltac:(lia) ltac:(rewrite upd_length; lia)) as (o & E1 & L & N).
    exists o. split; [exact E1|]. rewrite upd_length in L. split; [exact L|]. intros j. rewrite N. destruct (Nat.eq_dec j lo) as [->|D].
    + replace (S lo <=? lo) with false by (symmetry; apply Nat.leb_gt; lia). rewrite Nat.leb_refl. replace (lo <? hi) with true by (symmetry; apply Nat.ltb_lt; lia). cbn. apply nth_upd_eq. lia.
    + rewrite nth_upd_neq by lia. destruct (Nat.leb_spec (S lo) j), (Nat.leb_spec lo j), (Nat.ltb_spec j hi); cbn; try reflexivity; lia.
Qed.
Definition seg_slope (ix : list nat) (z : list K) (t : nat) : K := dv (nsub K (nth t z n0) (nth (t - 1) z n0)) (nth t ix 0) (nth (t - 1) ix 0).
Lemma emit_run n ix z c : csafe n ix z c n -> exists out, emit ix z c (repeat None n) = Ok out /\ length out = n /\
  forall t j, 1 <= t <= c -> nth (t - 1) ix 0 <= j < nth t ix 0 -> nth j out None = Some (seg_slope ix z t).
Proof.
  intros C. pose proof (csafe_gap _ _ _ _ _ C) as Gc. pose proof (csafe_incr _ _ _ _ _ C) as Hinc. destruct C as (M1 & M2 & M0 & M3 & _). unfold emit. unfold range at 1. replace (c + 1 - 1) with c by lia.
  assert (Hle : forall t, t <= c -> nth t ix 0 <= n). { intros t Ht. destruct (Nat.eq_dec t c) as [->|N]; [lia|]. pose proof (Hinc t c ltac:(lia) ltac:(lia)). lia. }
  match goal with |- context [forM _ ?b _] => set (body := b) end.
  set (I := fun m (s : nat * list (option K)) => fst s = nth m ix 0 /\ length (snd s) = n /\ forall t j, 1 <= t <= m -> nth (t - 1) ix 0 <= j < nth t ix 0 -> nth j (snd s) None = Some (seg_slope ix z t)).
  assert (GG : forall m i s, 1 <= i -> i + m = c + 1 -> I (i - 1) s -> exists s', forM (seq i m) body s = Ok s' /\ I c s').
  { induction m as [|m IH]; intros i s Hi E Is; cbn [seq forM].
    - exists s. split; [reflexivity|]. replace c with (i - 1) by lia. exact Is.
    - destruct s as [j out]. destruct Is as (I1 & I2 & I3). cbn [fst snd] in *. unfold body at 1. rewrite !(get_ok z _ n0), !(get_ok ix _ 0) by lia. cbn [bind].
      pose proof (Hinc (i - 1) i ltac:(lia) ltac:(lia)) as Hlt. pose proof (Hle i ltac:(lia)) as Hin. rewrite idiv_ok by lia. cbn [bind]. fold (seg_slope ix z i).
      destruct (fill_range (seg_slope ix z i) j (nth i ix 0) out ltac:(lia) ltac:(lia)) as (o & -> & L & N). cbn [bind]. apply IH; [lia|lia|].
      replace (S i - 1) with i by lia. unfold I. cbn [fst snd]. split; [lia|]. split; [lia|]. intros t u Ht Hu. rewrite N, I1. destruct (Nat.eq_dec t i) as [->|D].
      + destruct (Nat.leb_spec (nth (i - 1) ix 0) u), (Nat.ltb_spec u (nth i ix 0)); try lia. reflexivity.
      + assert (nth t ix 0 <= nth (i - 1) ix 0). { destruct (Nat.eq_dec t (i - 1)) as [->|]; [lia|]. pose proof (Hinc t (i - 1) ltac:(lia) ltac:(lia)). lia. }
        destruct (Nat.leb_spec (nth (i - 1) ix 0) u); [lia|]. cbn. apply I3; lia. }
  destruct (GG c 1 (0, repeat None n) ltac:(lia) ltac:(lia)) as ((j & out) & -> & I1 & I2 & I3); [unfold I; cbn [fst snd]; split; [cbn; lia|]; split; [apply repeat_length|]; intros; lia|].
  exists out. cbn [bind fst snd] in *. auto.
Qed.
(** every position lies on a segment *)
Lemma seg_of n ix z c : csafe n ix z c n -> forall j, j < n -> exists t, 1 <= t <= c /\ nth (t - 1) ix 0 <= j < nth t ix 0.
Proof.
  intros (M1 & M2 & M0 & M3 & Mi) j Hj.
  assert (G : forall m, m <= c -> j < nth m ix 0 -> exists t, 1 <= t <= m /\ nth (t - 1) ix 0 <= j < nth t ix 0).
  { induction m as [|m IH]; intros Hm H; [lia|]. destruct (le_lt_dec (nth m ix 0) j) as [A|A].
    - exists (S m). split; [lia|]. replace (S m - 1) with m by lia. lia.
    - destruct (IH ltac:(lia) A) as (t & Ht & B). exists t. split; [lia|exact B]. }
  destruct (G c ltac:(lia) ltac:(lia)) as (t & Ht & B). eauto.
Qed.

(** the bounds *)
Fixpoint acc (first : K) (input : list K) (i : nat) : K := match i with O => first | S i => nadd K (acc first input i) (nth (S i) input n0) end.
Definition tube (first : K) (fl : K -> K) (input : list K) (i : nat) : K :=
  match i with O => n0 | S i' => if Nat.eqb i (length input) then fl (acc first input i') else acc first input i' end.
Lemma fill_run first fl input : input <> [] -> exists y, fill_tube first fl input = Ok y /\ filled y (length input) (tube first fl input).
Proof.
  intros Hne. assert (Ln : 1 <= length input) by (destruct input; [congruence|cbn; lia]). set (n := length input) in *. unfold fill_tube. fold n.
  rewrite set_ok by (rewrite repeat_length; lia). cbn [bind]. rewrite set_ok by (rewrite upd_length, repeat_length; lia). cbn [bind].
  match goal with |- context [forM _ ?b _] => set (body := b) end. unfold range. replace (S n - 2) with (n - 1) by lia.
  set (I := fun m (y : list (option K)) => length y = S n /\ nth 0 y None = Some n0 /\ forall j, 1 <= j <= m -> nth j y None = Some (acc first input (j - 1))).
  assert (GG : forall m i s, 2 <= i -> i + m = S n -> I (i - 1) s -> exists s', forM (seq i m) body s = Ok s' /\ I n s').
  { induction m as [|m IH]; intros i s Hi E Is; cbn [seq forM].
    - exists s. split; [reflexivity|]. replace n with (i - 1) by lia. exact Is.
    - destruct Is as (I1 & I2 & I3). unfold body at 1. unfold rd. rewrite (get_ok s (i - 1) None) by lia. cbn [bind]. rewrite I3 by lia. cbn [bind]. rewrite (get_ok input (i - 1) n0) by lia. cbn [bind].
      rewrite set_ok by lia. cbn [bind]. apply IH; [lia|lia|]. replace (S i - 1) with i by lia. unfold I. rewrite upd_length. split; [exact I1|]. split; [rewrite nth_upd_neq by lia; exact I2|].
      intros j Hj. destruct (Nat.eq_dec j i) as [->|D]; [|rewrite nth_upd_neq by lia; apply I3; lia]. rewrite nth_upd_eq by lia. destruct i as [|[|i]]; [lia|lia|]. cbn. rewrite Nat.sub_0_r. reflexivity. }
  destruct (GG (n - 1) 2 (upd (upd (repeat None (S n)) 0 (Some n0)) 1 (Some first)) ltac:(lia) ltac:(lia)) as (y & -> & I1 & I2 & I3).
  { unfold I. rewrite !upd_length, repeat_length. split; [reflexivity|]. split; [rewrite nth_upd_neq by lia; apply nth_upd_eq; rewrite repeat_length; lia|].
    intros j Hj. replace j with 1 by lia. rewrite nth_upd_eq by (rewrite upd_length, repeat_length; lia). reflexivity. }
  cbn [bind]. unfold rd. rewrite (get_ok y _ None) by lia. cbn [bind]. rewrite I3 by lia. cbn [bind]. rewrite set_ok by lia. eexists. split; [reflexivity|].
  unfold filled. rewrite upd_length. split; [exact I1|]. intros i Hi. destruct i as [|i]; [rewrite nth_upd_neq by lia; exact I2|]. unfold tube. fold n. destruct (Nat.eqb_spec (S i) n) as [E|D].
  - rewrite E. replace (S n - 1) with n by lia. rewrite nth_upd_eq by lia. replace (n - 1) with i by lia. reflexivity.
  - rewrite nth_upd_neq by lia. rewrite I3 by lia. replace (S i - 1) with i by lia. reflexivity.
Qed.
Lemma written_ok (o : list (option K)) (g : nat -> K) : (forall j, j < length o -> nth j o None = Some (g j)) -> written o = Ok (map g (seq 0 (length o))).
Proof.
  unfold written. assert (G : forall (o : list (option K)) s, (forall j, j < length o -> nth j o None = Some (g (s + j))) ->
    mapM (fun o => match o with Some x => Ok x | None => Err RuntimeError end) o = Ok (map g (seq s (length o)))).
  { clear. induction o as [|a o IH]; intros s H; [reflexivity|]. cbn [mapM length seq map]. pose proof (H 0 ltac:(cbn; lia)) as H0. cbn in H0. rewrite H0. cbn [bind]. rewrite (IH (S s)).
    - cbn [bind]. rewrite Nat.add_0_r. reflexivity.
    - intros j Hj. specialize (H (S j) ltac:(cbn; lia)). cbn in H. rewrite H. do 2 f_equal. lia. }
  intros H. apply G. intros j Hj. apply H, Hj.
Qed.
Definition init_taut (pinf ninf : K) (n : nat) : taut K :=
  mkT (mkH (repeat 0 (S n)) (upd (repeat n0 (S n)) 0 pinf) 0 0) (mkH (repeat 0 (S n)) (upd (repeat n0 (S n)) 0 ninf) 0 0) (repeat 0 (S n)) (upd (repeat n0 (S n)) 0 n0) 0.
Lemma repeat0 m i : nth i (repeat 0 m) 0 = 0.
Proof. revert i; induction m; intros [|i]; cbn; auto. Qed.
Lemma init_safe pinf ninf n : tsafe n (init_taut pinf ninf n) 0.
Proof.
  exists 0. unfold init_taut, csafe, hsafe. cbn [t_low t_up t_ix t_z t_c h_idx h_slp h_s h_c]. rewrite !upd_length, !repeat_length, !repeat0. repeat split; try lia.
Qed.
(** the routine, with the state after the main loop satisfying an invariant *)
Lemma low_tv1d_run (pinf ninf step : K) (input : list K) (Q : nat -> taut K -> Prop) : input <> [] -> let n := length input in
  let flo := tube (nsub K (nth 0 input n0) step) (fun a => nadd K a step) input in let fup := tube (nadd K (nth 0 input n0) step) (fun a => nsub K a step) input in
  (forall ylo yup i t, filled ylo n flo -> filled yup n fup -> 1 <= i <= n -> Q (i - 1) t -> exists t', taut_step ylo yup i t = Ok t' /\ Q i t') ->
  Q 0 (init_taut pinf ninf n) -> (forall t, Q n t -> tsafe n t n) ->
  exists t ix z out, let c := t_c t + (h_c (t_low t) - h_s (t_low t)) in low_tv1d pinf ninf step input = Ok out /\ Q n t /\ length out = n /\ csafe n ix z c n /\
    (forall j, j <= t_c t -> nth j ix 0 = nth j (t_ix t) 0 /\ nth j z n0 = nth j (t_z t) n0) /\
    (forall i, 1 <= i <= h_c (t_low t) - h_s (t_low t) -> nth (t_c t + i) ix 0 = nth (h_s (t_low t) + i) (h_idx (t_low t)) 0 /\ nth (t_c t + i) z n0 = flo (nth (h_s (t_low t) + i) (h_idx (t_low t)) 0)) /\
    forall u j, 1 <= u <= c -> nth (u - 1) ix 0 <= j < nth u ix 0 -> nth j out None = Some (seg_slope ix z u).
Proof.
  intros Hne n flo fup Hstep Q0 Hsafe. assert (Ln : 1 <= length input) by (destruct input; [congruence|cbn; lia]). unfold low_tv1d.
  rewrite (get_ok input 0 n0) by lia. cbn [bind].
  destruct (fill_run (nsub K (nth 0 input n0) step) (fun a => nadd K a step) input Hne) as (ylo & -> & Hlo). cbn [bind].
  destruct (fill_run (nadd K (nth 0 input n0) step) (fun a => nsub K a step) input Hne) as (yup & -> & Hup). cbn [bind].
  fold n flo in Hlo. fold n fup in Hup. fold n. rewrite !set_ok by (rewrite repeat_length; lia). cbn [bind]. rewrite (rd_ok ylo n flo 0 Hlo) by lia. cbn [bind].
  replace (flo 0) with (n0 : K) by reflexivity. rewrite !set_ok by (rewrite repeat_length; lia). cbn [bind].
  destruct (loop_run n ylo yup Q (init_taut pinf ninf n)) as (t & E & Qn).
  { destruct Hlo as [A B]. split; [exact A|]. intros i Hi. rewrite (B i Hi). reflexivity. }
  { intros i t. apply Hstep; assumption. } { exact Q0. }
  unfold init_taut in E. rewrite E. cbn [bind]. pose proof (Hsafe t Qn) as S.
  destruct (flush_run n ylo flo t Hlo S) as (ix & z & -> & C & F1 & F2). cbn [bind].
  assert (Hc : t_c t + h_c (t_low t) - h_s (t_low t) = t_c t + (h_c (t_low t) - h_s (t_low t))) by (destruct S as (k & _ & (_ & _ & A & _) & _); lia).
  rewrite Hc. destruct (emit_run n ix z _ C) as (out & -> & Lo & Ho). exists t, ix, z, out. repeat (split; [assumption || reflexivity|]). exact Ho.
Qed.
Lemma low_tv1d_total (pinf ninf step : K) (input : list K) : input <> [] -> exists p, low_tv1d pinf ninf step input = Ok (map Some p) /\ length p = length input /\ prox_tv1d pinf ninf input step = Ok p.
Proof.
  intros Hne. destruct (low_tv1d_run pinf ninf step input (fun i t => tsafe (length input) t i) Hne) as (t & ix & z & out & E & _ & Lo & C & _ & _ & Ho).
  - intros ylo yup i t Hl Hu Hi S. eapply step_safe; eassumption.
  - apply init_safe.
  - auto.
  - set (g := fun j => match nth j out None with Some a => a | None => n0 end).
    assert (Hg : forall j, j < length out -> nth j out None = Some (g j)).
    { intros j Hj. unfold g. destruct (seg_of _ _ _ _ C j ltac:(lia)) as (u & Hu & B). rewrite (Ho u j Hu B). reflexivity. }
    exists (map g (seq 0 (length out))). split; [|split].
    + rewrite E. f_equal. apply (list_ext _ _ None); [rewrite !map_length, seq_length; reflexivity|]. intros j Hj. rewrite Hg by exact Hj.
      rewrite map_map. rewrite (nth_indep _ None (Some (g 0))) by (rewrite map_length, seq_length; exact Hj). rewrite (map_nth (fun x => Some (g x))), seq_nth by exact Hj. reflexivity.
    + rewrite map_length, seq_length. exact Lo.
    + unfold prox_tv1d. rewrite E. cbn [bind]. apply written_ok, Hg.
Qed.
End Safe.
