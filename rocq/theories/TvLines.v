(** * The 1-D routine applied to the rows or the columns of an image *)
From Coq Require Import ZArith Bool List Lia Reals Lra Permutation.
From Verif Require Import Num Vec Spec SpecTv RVec ModelPenalty PenaltyFacts ModelTv TvSafe TvHull TvKkt TvTaut.
Import ListNotations.
Local Open Scope nat_scope.

Lemma scatter_gen {A} (d : A) g : forall x vals, NoDup g -> Forall (fun i => i < length x) g -> length vals = length g ->
  exists x', scatter x g vals = Ok x' /\ length x' = length x /\ map (fun k => nth k x' d) g = vals /\ forall k, ~ In k g -> nth k x' d = nth k x d.
Proof.
  induction g as [|i g IH]; intros x vals Hn Hf L; destruct vals as [|v vals]; try discriminate L; cbn [scatter].
  - exists x. auto.
  - inversion Hn as [|? ? Hi Hn']; inversion Hf as [|? ? Hlt Hf']; subst. rewrite set_ok by exact Hlt. cbn [bind].
    destruct (IH (upd x i v) vals Hn') as (x' & E & Hl & H1 & H2); [eapply Forall_impl; [|exact Hf']; intros; rewrite upd_length; assumption|cbn in L; lia|].
    rewrite upd_length in Hl. exists x'. split; [exact E|]. split; [exact Hl|]. split; [cbn [map]; rewrite H1, H2, nth_upd_eq by assumption; reflexivity|].
    intros k Hk. rewrite H2 by (intro; apply Hk; right; assumption). apply nth_upd_neq. intros ->; apply Hk; left; reflexivity.
Qed.
Lemma NoDup_app_l {A} (a b : list A) : NoDup (a ++ b) -> NoDup a.
Proof. induction a as [|x a IH]; intros H; [constructor|]. cbn in H. inversion H; subst. constructor; [intros Hi; apply H2, in_or_app; auto|auto]. Qed.
Lemma NoDup_app_r {A} (a b : list A) : NoDup (a ++ b) -> NoDup b.
Proof. induction a as [|x a IH]; intros H; [exact H|]. cbn in H. inversion H; auto. Qed.
Lemma NoDup_app_d {A} (a b : list A) x : NoDup (a ++ b) -> In x a -> In x b -> False.
Proof. induction a as [|y a IH]; intros H Ha Hb; [destruct Ha|]. cbn in H. inversion H as [|? ? H2 H3]; subst. destruct Ha as [->|Ha]; [apply H2, in_or_app; auto|auto]. Qed.

Section Lines.
Context {K : Num}.
Definition at_ (l : list nat) (x : list K) : list K := map (fun k => nth k x n0) l.
Lemma prox_lines_run (pinf ninf step : K) rows cols lines (a : list K) : length a = rows * cols -> Permutation (concat lines) (seq 0 (rows * cols)) -> (forall l, In l lines -> l <> []) ->
  exists y, prox_lines pinf ninf step rows cols lines a = Ok y /\ length y = rows * cols /\ forall l, In l lines -> prox_tv1d pinf ninf (at_ l a) step = Ok (at_ l y).
Proof.
  intros La Hp Hne. unfold prox_lines. rewrite La, Nat.eqb_refl. cbn [negb].
  assert (Nd : NoDup (concat lines)) by (eapply Permutation_NoDup; [apply Permutation_sym, Hp|apply seq_NoDup]).
  assert (Hlt : forall l k, In l lines -> In k l -> k < rows * cols). { intros l k Hl Hk. assert (H : In k (concat lines)) by (apply in_concat; eauto). apply (Permutation_in _ Hp) in H. apply in_seq in H. lia. }
  set (I := fun pre (out : list (option K)) => length out = rows * cols /\ forall l, In l pre -> exists p, prox_tv1d pinf ninf (at_ l a) step = Ok p /\ map (fun k => nth k out None) l = map Some p).
  destruct (forM_inv (fun ids out => v <- gather a ids ;; o <- low_tv1d pinf ninf step v ;; scatter out ids o) I lines (repeat None (rows * cols))) as (out & -> & I1 & I2).
  { split; [apply repeat_length|intros l []]. }
  { intros pre l post out E (Lo & Hpre). assert (Hl : In l lines) by (rewrite E; apply in_or_app; right; left; reflexivity).
    assert (Fl : Forall (fun i => i < rows * cols) l) by (apply Forall_forall; intros k Hk; eapply Hlt; eassumption).
    rewrite (gather_ok a l n0) by (rewrite La; exact Fl). cbn [bind]. fold (at_ l a).
    destruct (low_tv1d_total pinf ninf step (at_ l a)) as (p & -> & Lp & Ep). { intros N. apply (Hne l Hl). destruct l; [reflexivity|discriminate N]. }
    cbn [bind]. rewrite E, concat_app in Nd. cbn [concat] in Nd. unfold at_ in Lp. rewrite map_length in Lp.
    destruct (scatter_gen None l out (map Some p)) as (out' & -> & Lo' & H1 & H2); [eapply NoDup_app_l, NoDup_app_r, Nd|rewrite Lo; exact Fl|rewrite map_length; exact Lp|].
    exists out'. split; [reflexivity|]. split; [lia|]. intros l' Hl'. apply in_app_or in Hl' as [Hl'|[<-|[]]]; [|exists p; auto].
    destruct (Hpre l' Hl') as (p' & Q1 & Q2). exists p'. split; [exact Q1|]. rewrite <- Q2. apply map_ext_in. intros k Hk. apply H2. intros Hk'.
    eapply (NoDup_app_d _ _ k Nd); [apply in_concat; eauto|apply in_or_app; left; exact Hk']. }
  cbn [bind]. set (g := fun k => match nth k out None with Some v => v | None => n0 end).
  assert (Hg : forall k, k < length out -> nth k out None = Some (g k)).
  { intros k Hk. rewrite I1 in Hk. assert (H : In k (concat lines)) by (apply (Permutation_in _ (Permutation_sym Hp)), in_seq; lia). apply in_concat in H as (l & Hl & Hkl).
    destruct (I2 l Hl) as (p & _ & Q). apply (in_map (fun k => nth k out None)) in Hkl. rewrite Q in Hkl. apply in_map_iff in Hkl as (v & Ev & _). unfold g. rewrite <- Ev. reflexivity. }
  rewrite (written_ok out g Hg). eexists. split; [reflexivity|]. rewrite map_length, seq_length. split; [exact I1|].
  intros l Hl. destruct (I2 l Hl) as (p & Q1 & Q2). rewrite Q1. f_equal. unfold at_. apply (f_equal (map (fun o => match o with Some v => v | None => n0 end))) in Q2. rewrite !map_map, map_id in Q2.
  rewrite <- Q2. apply map_ext_in. intros k Hk. pose proof (Hlt l k Hl Hk). rewrite (nth_indep _ n0 (g 0)) by (rewrite map_length, seq_length; lia). rewrite map_nth, seq_nth by lia. reflexivity.
Qed.
End Lines.

(** the rows and the columns partition the positions *)
Lemma rows_concat cols m : forall r0, concat (map (row_idx cols) (seq r0 m)) = seq (r0 * cols) (m * cols).
Proof.
  induction m as [|m IH]; intros r0; [reflexivity|]. cbn [seq map concat]. rewrite IH. replace (S m * cols) with (cols + m * cols) by lia. rewrite seq_app.
  f_equal; [|f_equal; lia]. unfold row_idx. apply (list_ext _ _ 0); [rewrite map_length, !seq_length; reflexivity|]. intros j Hj. rewrite map_length, seq_length in Hj.
  rewrite (nth_indep _ 0 (r0 * cols + 0)) by (rewrite map_length, seq_length; lia). rewrite (map_nth (fun j => r0 * cols + j)), !seq_nth by lia. lia.
Qed.
Lemma rows_perm rows cols : Permutation (concat (map (row_idx cols) (seq 0 rows))) (seq 0 (rows * cols)).
Proof. rewrite rows_concat. apply Permutation_refl. Qed.
Lemma NoDup_concat_map {A B} (f : A -> list B) l : NoDup l -> (forall x, In x l -> NoDup (f x)) -> (forall x y z, In x l -> In y l -> In z (f x) -> In z (f y) -> x = y) -> NoDup (concat (map f l)).
Proof.
  induction l as [|a l IH]; intros Hn H1 H2; [constructor|]. cbn [map concat]. inversion Hn as [|? ? Ha Hn']; subst.
  assert (Q : NoDup (concat (map f l))) by (apply IH; [exact Hn'|intros; apply H1; right; assumption|intros x y z Hx Hy; apply H2; right; assumption]).
  assert (D : forall z, In z (f a) -> ~ In z (concat (map f l))).
  { intros z Hz Hc. apply in_concat in Hc as (m & Hm & Hzm). apply in_map_iff in Hm as (b & <- & Hb). apply Ha. rewrite (H2 a b z); [exact Hb|left; reflexivity|right; exact Hb|exact Hz|exact Hzm]. }
  pose proof (H1 a (or_introl eq_refl)) as N1. revert N1 D. generalize (f a). induction l0 as [|b m IHm]; intros N1 D; [exact Q|]. cbn. inversion N1; subst. constructor.
  - intros Hb. apply in_app_or in Hb as [Hb|Hb]; [contradiction|]. eapply D; [left; reflexivity|exact Hb].
  - apply IHm; [assumption|]. intros z Hz. apply D. right; exact Hz.
Qed.
Lemma cols_perm rows cols : Permutation (concat (map (col_idx rows cols) (seq 0 cols))) (seq 0 (rows * cols)).
Proof.
  apply NoDup_Permutation; [|apply seq_NoDup|].
  - apply NoDup_concat_map; [apply seq_NoDup| |].
    + intros j Hj. apply in_seq in Hj. unfold col_idx. apply FinFun.Injective_map_NoDup; [|apply seq_NoDup]. intros a b E. nia.
    + intros j j' z Hj Hj' Hz Hz'. apply in_seq in Hj, Hj'. apply in_map_iff in Hz as (i & <- & _). apply in_map_iff in Hz' as (i' & E & _).
      rewrite (Nat.mul_comm i), (Nat.mul_comm i') in E. destruct (Nat.div_mod_unique cols i' i j' j) as (_ & H); [lia|lia|lia|]. lia.
  - intros k. rewrite in_seq, in_concat. split.
    + intros (l & Hl & Hk). apply in_map_iff in Hl as (j & <- & Hj). apply in_map_iff in Hk as (i & <- & Hi). apply in_seq in Hi, Hj. nia.
    + intros Hk. assert (Hc : cols <> 0) by nia. exists (col_idx rows cols (k mod cols)). split; [apply in_map, in_seq; pose proof (Nat.mod_upper_bound k cols Hc); lia|].
      apply in_map_iff. exists (k / cols). split; [pose proof (Nat.div_mod k cols Hc); lia|]. apply in_seq. assert (k / cols < rows) by (apply Nat.div_lt_upper_bound; nia). lia.
Qed.
Lemma prox_cols_run {K : Num} (pinf ninf step : K) (a : list K) rows cols : length a = rows * cols -> 1 <= rows ->
  exists y, prox_cols pinf ninf step a rows cols = Ok y /\ length y = rows * cols /\ forall l, In l (map (col_idx rows cols) (seq 0 cols)) -> prox_tv1d pinf ninf (at_ l a) step = Ok (at_ l y).
Proof.
  intros La Hr. apply prox_lines_run; [exact La|apply cols_perm|]. intros l Hl. apply in_map_iff in Hl as (j & <- & _). unfold col_idx. destruct rows; [lia|discriminate].
Qed.
Lemma prox_rows_run {K : Num} (pinf ninf step : K) (a : list K) rows cols : length a = rows * cols -> 1 <= cols ->
  exists y, prox_rows pinf ninf step a rows cols = Ok y /\ length y = rows * cols /\ forall l, In l (map (row_idx cols) (seq 0 rows)) -> prox_tv1d pinf ninf (at_ l a) step = Ok (at_ l y).
Proof.
  intros La Hr. apply prox_lines_run; [exact La|apply rows_perm|]. intros l Hl. apply in_map_iff in Hl as (j & <- & _). unfold row_idx. destruct cols; [lia|discriminate].
Qed.

(** ** over the reals *)
Local Open Scope R_scope.
Definition sub_ (l : list nat) (x : list R) : list R := map (fun k => nth k x 0) l.
Definition ltv (lines : list (list nat)) (x : list R) : R := Rsum (map (fun l => tv (sub_ l x)) lines).
Lemma Rsum_perm a b : Permutation a b -> Rsum a = Rsum b.
Proof. induction 1; cbn; lra. Qed.
Lemma Rsum_seq f n : Rsum (map f (seq 0 n)) = sm n f.
Proof.
  assert (G : forall m, Rsum (map f (seq 0 m)) = sm m f). { induction m as [|m IH]; [reflexivity|]. rewrite seq_S, map_app, Rsum_app, IH. cbn. ring. } apply G.
Qed.
Lemma dot_sub l (u v : list R) : dot (sub_ l u) (sub_ l v) = Rsum (map (fun k => nth k u 0 * nth k v 0) l).
Proof. induction l as [|k l IH]; [reflexivity|]. cbn. unfold sub_ in IH. rewrite IH. reflexivity. Qed.
Lemma dot_lines lines n (u v : list R) : length u = n -> length v = n -> Permutation (concat lines) (seq 0 n) -> Rsum (map (fun l => dot (sub_ l u) (sub_ l v)) lines) = dot u v.
Proof.
  intros Lu Lv Hp. transitivity (Rsum (map (fun k => nth k u 0 * nth k v 0) (concat lines))).
  - clear. induction lines as [|l lines IH]; [reflexivity|]. cbn [map concat]. rewrite map_app, Rsum_app. cbn [Rsum]. rewrite IH, dot_sub. reflexivity.
  - rewrite (Rsum_perm _ _ (Permutation_map _ Hp)), Rsum_seq, dot_sm by congruence. rewrite Lu. reflexivity.
Qed.
Lemma sub_lin a u b v l : length u = length v -> sub_ l (lin a u b v) = lin a (sub_ l u) b (sub_ l v).
Proof. intros L. induction l as [|k l IH]; [reflexivity|]. cbn. unfold sub_ in IH. rewrite IH, nth_lin by exact L. reflexivity. Qed.
Lemma sub_length l x : length (sub_ l x) = length l.
Proof. unfold sub_. apply map_length. Qed.

Lemma prox_tv1d_vi (pinf ninf : R) (w : list R) (step : R) : w <> [] -> 0 <= step -> exists p : list R, prox_tv1d (K:=RN) pinf ninf w step = Ok p /\ length p = length w /\
  forall y, length y = length w -> step * tv p + dot (vminus w p) (vminus y p) <= step * tv y.
Proof.
  intros Hne Hs. destruct (prox_tv1d_R pinf ninf w step Hne Hs) as (p & E & L & P & P0 & Pn & Pd & Pk). exists p. split; [exact E|]. split; [exact L|].
  intros y Ly. apply (tv_kkt w p step P L P0 Pn Pd Pk y Ly).
Qed.
Lemma lines_vi (pinf ninf step : R) n lines (a y : list R) : 0 <= step -> length a = n -> length y = n -> Permutation (concat lines) (seq 0 n) -> (forall l, In l lines -> l <> []) ->
  (forall l, In l lines -> prox_tv1d (K:=RN) pinf ninf (at_ (K:=RN) l a) step = Ok (at_ (K:=RN) l y)) ->
  forall z, length z = n -> step * ltv lines y + dot (vminus a y) (vminus z y) <= step * ltv lines z.
Proof.
  intros Hs La Ly Hp Hne H z Lz. rewrite <- (dot_lines lines n (vminus a y) (vminus z y)); [|unfold vminus; rewrite lin_length; lia|unfold vminus; rewrite lin_length; lia|exact Hp].
  unfold ltv. clear Hp. induction lines as [|l lines IH]; [cbn; lra|]. cbn [map Rsum]. specialize (IH (fun l' Hl' => Hne l' (or_intror Hl')) (fun l' Hl' => H l' (or_intror Hl'))).
  destruct (prox_tv1d_vi pinf ninf (sub_ l a) step) as (p & E & Lp & V); [specialize (Hne l (or_introl eq_refl)); destruct l; [congruence|discriminate]|exact Hs|].
  specialize (H l (or_introl eq_refl)). assert (Ep : p = sub_ l y). { pose proof (eq_trans (eq_sym E) H) as Q. injection Q as Q. exact Q. }
  subst p. specialize (V (sub_ l z) ltac:(rewrite !sub_length; reflexivity)). unfold vminus in *. rewrite !sub_lin by lia. lra.
Qed.

(** ** total variation is a seminorm *)
Lemma tv_lin_le a u b v : length u = length v -> tv (lin a u b v) <= Rabs a * tv u + Rabs b * tv v.
Proof.
  intros L. rewrite !tv_sm, lin_length, <- L, Nat.min_id, <- !sm_scal, <- sm_add. apply sm_le. intros j Hj. rewrite !nth_lin by exact L.
  rewrite <- !Rabs_mult. eapply Rle_trans; [|apply Rabs_triang]. apply Req_le. f_equal. ring.
Qed.
Lemma tv_nonneg u : 0 <= tv u.
Proof. rewrite tv_sm. rewrite <- (sm_zero (length u - 1) (fun _ => 0)) by reflexivity. apply sm_le. intros; apply Rabs_pos. Qed.
Lemma tv_zero n : tv (zeros n) = 0.
Proof. rewrite tv_sm. apply sm_zero. intros. rewrite !nth_zeros. rewrite Rminus_0_r. apply Rabs_R0. Qed.
Lemma tv_l1 u : tv u <= 2 * l1 u.
Proof.
  destruct u as [|x u]; [cbn; lra|]. enough (tv (x :: u) <= Rabs x + 2 * l1 u) by (cbn [l1]; pose proof (Rabs_pos x); lra).
  revert x. induction u as [|y u IH]; intros x; [cbn; pose proof (Rabs_pos x); lra|]. change (tv (x :: y :: u)) with (Rabs (y - x) + tv (y :: u)). specialize (IH y). cbn [l1].
  pose proof (Rabs_triang y (- x)) as Q. rewrite Rabs_Ropp in Q. replace (y + - x) with (y - x) in Q by ring. lra.
Qed.
Lemma ltv_lin lines a u b v : length u = length v -> ltv lines (lin a u b v) <= Rabs a * ltv lines u + Rabs b * ltv lines v.
Proof.
  intros L. unfold ltv. induction lines as [|l lines IH]; [cbn; lra|]. cbn [map Rsum]. rewrite (sub_lin a u b v l L).
  pose proof (tv_lin_le a (sub_ l u) b (sub_ l v) ltac:(rewrite !sub_length; reflexivity)). lra.
Qed.
Lemma ltv_nonneg lines u : 0 <= ltv lines u.
Proof. unfold ltv. induction lines; cbn; [lra|]. pose proof (tv_nonneg (sub_ a u)). lra. Qed.
Lemma sub_zeros l n : sub_ l (zeros n) = zeros (length l).
Proof. induction l as [|k l IH]; [reflexivity|]. cbn. unfold sub_ in IH. rewrite IH, nth_zeros. reflexivity. Qed.
Lemma ltv_zeros lines n : ltv lines (zeros n) = 0.
Proof. unfold ltv. induction lines as [|l lines IH]; [reflexivity|]. cbn [map Rsum]. rewrite IH, sub_zeros, tv_zero. ring. Qed.
Lemma l1_sub l x : l1 (sub_ l x) = Rsum (map (fun k => Rabs (nth k x 0)) l).
Proof. induction l as [|k l IH]; [reflexivity|]. cbn. unfold sub_ in IH. rewrite IH. reflexivity. Qed.
Lemma ltv_l1 lines n x : length x = n -> Permutation (concat lines) (seq 0 n) -> ltv lines x <= 2 * l1 x.
Proof.
  intros L Hp. assert (G : ltv lines x <= 2 * Rsum (map (fun k => Rabs (nth k x 0)) (concat lines))).
  { clear Hp. unfold ltv. induction lines as [|l lines IH]; [cbn; lra|]. cbn [map Rsum concat]. rewrite map_app, Rsum_app. pose proof (tv_l1 (sub_ l x)). rewrite l1_sub in H. lra. }
  rewrite (Rsum_perm _ _ (Permutation_map _ Hp)), Rsum_seq in G. rewrite l1_Rsum, Rsum_sm, map_length, L. erewrite sm_ext; [exact G|]. intros k Hk. cbn.
  rewrite (nth_indep _ 0 (Rabs 0)) by (rewrite map_length; lia). apply map_nth.
Qed.
Lemma sm_const n c : sm n (fun _ => c) = INR n * c.
Proof. induction n as [|n IH]; [cbn; ring|]. rewrite S_INR. cbn [sm]. rewrite IH. ring. Qed.
Lemma l1_bound x c : (forall k, (k < length x)%nat -> Rabs (nth k x 0) <= c) -> l1 x <= INR (length x) * c.
Proof.
  intros H. rewrite l1_Rsum, Rsum_sm, map_length, <- sm_const. apply sm_le. intros k Hk. rewrite (nth_indep _ 0 (Rabs 0)) by (rewrite map_length; lia). rewrite map_nth. apply H, Hk.
Qed.
