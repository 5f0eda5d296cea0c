(** * load_img1: closed lemmas (C107) *)
From Coq Require Import List Arith Bool Lia.
From Verif Require Import Vec ModelImage.
Import ListNotations.

(** the shape of an array: [r] rows of [c] entries *)
Definition has_shape {V} (r c : nat) (a : list (list V)) : Prop := length a = r /\ Forall (fun row => length row = c) a.
(** an interpolation into width w and height h yields h rows of w pixels *)
Definition interp_ok {V} (interp : nat -> nat -> list (list V) -> list (list V)) : Prop :=
  forall w h a, has_shape h w (interp w h a).

Lemma rows_of_shape {V} (cols : nat) : forall rows (l : list V), length l = (rows * cols)%nat -> has_shape rows cols (rows_of rows cols l).
Proof.
  induction rows as [|r IH]; intros l Hl; cbn [rows_of]; [split; [reflexivity|constructor]|].
  cbn in Hl. destruct (IH (skipn cols l)) as (A & B); [rewrite skipn_length; lia|]. split; [cbn; lia|]. constructor; [rewrite firstn_length; lia|exact B].
Qed.
Lemma rows_of_nth {V} (d : V) (cols : nat) : forall rows (l : list V) i j, length l = (rows * cols)%nat -> (i < rows)%nat -> (j < cols)%nat ->
  nth j (nth i (rows_of rows cols l) []) d = nth (i * cols + j) l d.
Proof.
  induction rows as [|r IH]; intros l i j Hl Hi Hj; [lia|]. cbn in Hl. cbn [rows_of]. destruct i as [|i]; cbn [nth].
  - cbn [Nat.mul Nat.add]. rewrite <- (firstn_skipn cols l) at 2. rewrite app_nth1; [reflexivity|]. rewrite firstn_length. lia.
  - rewrite IH; [|rewrite skipn_length; lia|lia|exact Hj]. rewrite <- (firstn_skipn cols l) at 2. rewrite app_nth2; rewrite firstn_length; rewrite Nat.min_l by lia; [|cbn; lia]. f_equal. cbn. lia.
Qed.
Lemma shape_width {V} r c (a : list (list V)) : has_shape r c a -> (0 < r)%nat -> width a = c.
Proof. intros (A & B) H. destruct a as [|x a]; [cbn in A; lia|]. exact (Forall_inv B). Qed.

Lemma img1_shape {V} interp (grid : list V) k n_rows n_cols : interp_ok interp -> length grid = (k * k)%nat -> (0 < k)%nat -> (0 < n_rows)%nat -> (0 < n_cols)%nat ->
  exists a, load_img1 interp grid n_rows n_cols = Ok a /\ has_shape n_cols n_rows a.
Proof.
  intros Hi Hl Hk Hr Hc. unfold load_img1. rewrite Hl, Nat.sqrt_square. unfold reshape2. rewrite Hl, Nat.eqb_refl. cbn [bind pil_resize].
  replace (Nat.eqb n_rows 0) with false by (symmetry; apply Nat.eqb_neq; lia). replace (Nat.eqb n_cols 0) with false by (symmetry; apply Nat.eqb_neq; lia). cbn [orb].
  pose proof (rows_of_shape k k grid Hl) as S. pose proof (shape_width _ _ _ S Hk) as W.
  destruct (Nat.eqb n_rows (width (rows_of k k grid)) && Nat.eqb n_cols (height (rows_of k k grid))) eqn:E.
  - apply andb_true_iff in E as (E1 & E2). apply Nat.eqb_eq in E1, E2. eexists. split; [reflexivity|].
    unfold height in E2. rewrite W in E1. subst n_rows. rewrite E2. destruct S as (S1 & S2). split; [rewrite S1; reflexivity|exact S2].
  - eexists. split; [reflexivity|]. apply Hi.
Qed.
(** every request for a non-square image gets the two sizes swapped *)
Lemma main_C107_shape_refuted : forall (V : Type) interp (grid : list V) k n_rows n_cols,
  interp_ok interp -> length grid = (k * k)%nat -> (0 < k)%nat -> (0 < n_rows)%nat -> (0 < n_cols)%nat -> n_rows <> n_cols ->
  exists a, load_img1 interp grid n_rows n_cols = Ok a /\ has_shape n_cols n_rows a /\ ~ has_shape n_rows n_cols a.
Proof.
  intros V interp grid k r c Hi Hl Hk Hr Hc Hne. destruct (img1_shape interp grid k r c Hi Hl Hk Hr Hc) as (a & E & S). exists a. split; [exact E|]. split; [exact S|]. intros (A & _). destruct S as (B & _). lia.
Qed.
(** square requests have the right shape, and the size of the file itself gives back its pixels *)
Lemma main_C107_square_partial : forall (V : Type) interp (grid : list V) k,
  interp_ok interp -> length grid = (k * k)%nat -> (0 < k)%nat ->
  (forall m, (0 < m)%nat -> exists a, load_img1 interp grid m m = Ok a /\ has_shape m m a) /\
  exists a, load_img1 interp grid k k = Ok a /\ forall (d : V) i j, (i < k)%nat -> (j < k)%nat -> nth j (nth i a []) d = nth (i * k + j) grid d.
Proof.
  intros V interp grid k Hi Hl Hk. split; [intros m Hm; apply (img1_shape interp grid k m m Hi Hl Hk Hm Hm)|].
  unfold load_img1. rewrite Hl, Nat.sqrt_square. unfold reshape2. rewrite Hl, Nat.eqb_refl. cbn [bind pil_resize].
  replace (Nat.eqb k 0) with false by (symmetry; apply Nat.eqb_neq; lia). cbn [orb].
  pose proof (rows_of_shape k k grid Hl) as S. rewrite (shape_width _ _ _ S Hk). unfold height. rewrite (proj1 S), Nat.eqb_refl. cbn [andb].
  eexists. split; [reflexivity|]. intros d i j Hi1 Hj1. apply rows_of_nth; assumption.
Qed.
(** which calls raise *)
Lemma main_C107_errors : forall (V : Type) interp (grid : list V) n_rows n_cols,
  (0 < length grid)%nat ->
  (load_img1 interp grid n_rows n_cols = Err ValueError <->
     (forall k, length grid <> (k * k)%nat) \/ n_rows = 0%nat \/ n_cols = 0%nat) /\
  (load_img1 interp grid n_rows n_cols <> Err ValueError -> exists a, load_img1 interp grid n_rows n_cols = Ok a).
Proof.
  intros V interp grid r c Hi. unfold load_img1, reshape2. set (d := Nat.sqrt (length grid)).
  destruct (Nat.eqb_spec (d * d) (length grid)) as [E|E]; cbn [bind pil_resize].
  - destruct (Nat.eqb_spec r 0) as [->|Hr]; [cbn [orb]; split; [split; [auto|reflexivity]|congruence]|].
    destruct (Nat.eqb_spec c 0) as [->|Hc]; [cbn [orb]; split; [split; [auto|reflexivity]|congruence]|].
    cbn [orb]. destruct (Nat.eqb _ _ && Nat.eqb _ _); (split; [split; [discriminate|intros [H|[H|H]]; [exfalso; apply (H d); symmetry; exact E|contradiction|contradiction]]|intros _; eexists; reflexivity]).
  - split; [|congruence]. split; [|reflexivity]. intros _. left. intros k Hk. apply E. unfold d. rewrite Hk, Nat.sqrt_square. reflexivity.
Qed.
