(** * C28: two-dimensional operands of safe_sparse_add and operands that do not fit *)
From Coq Require Import ZArith Bool List Lia.
From Verif Require Import Num Vec ModelUtilsArr.
Import ListNotations.
Set Implicit Arguments.

Lemma bc_same n : bc n n = Ok n.
Proof. unfold bc. now rewrite Nat.eqb_refl. Qed.
Lemma bi_lt n i : i < n -> bi n i = i.
Proof. intros H. unfold bi. destruct (Nat.eqb_spec n 1) as [->|]; lia. Qed.
Lemma main_C28_sparse_add_matrices : forall (K : Num) (m n : nat) (u : nat -> K) (w w' : nat -> nat -> K),
  (* matrices of the same shape, at most one of them sparse *)
  (exists h, safe_sparse_add (Dense (A2 m n w)) (Dense (A2 m n w')) = Ok (Dense (A2 m n h)) /\
     forall i j, (i < m)%nat -> (j < n)%nat -> h i j = nadd K (w i j) (w' i j)) /\
  (exists h, safe_sparse_add (Sparse m n w) (Dense (A2 m n w')) = Ok (Dense (A2 m n h)) /\
     forall i j, (i < m)%nat -> (j < n)%nat -> h i j = nadd K (w i j) (w' i j)) /\
  (exists h, safe_sparse_add (Dense (A2 m n w)) (Sparse m n w') = Ok (Dense (A2 m n h)) /\
     forall i j, (i < m)%nat -> (j < n)%nat -> h i j = nadd K (w i j) (w' i j)) /\
  (* a dense vector is added to every row *)
  (exists h, safe_sparse_add (Dense (A1 n u)) (Dense (A2 m n w)) = Ok (Dense (A2 m n h)) /\
     forall i j, (i < m)%nat -> (j < n)%nat -> h i j = nadd K (u j) (w i j)) /\
  (exists h, safe_sparse_add (Dense (A2 m n w)) (Dense (A1 n u)) = Ok (Dense (A2 m n h)) /\
     forall i j, (i < m)%nat -> (j < n)%nat -> h i j = nadd K (w i j) (u j)) /\
  (exists h, safe_sparse_add (Sparse m n w) (Dense (A1 n u)) = Ok (Dense (A2 m n h)) /\
     forall i j, (i < m)%nat -> (j < n)%nat -> h i j = nadd K (w i j) (u j)).
Proof.
  intros K m n u w w'.
  repeat split; cbn [safe_sparse_add toarray ndim Nat.eqb andb np_add]; rewrite ?bc_same; cbn [bind]; rewrite ?bc_same; cbn [bind]; eexists;
    (split; [reflexivity|]); intros i j Hi Hj; cbn beta; rewrite ?(bi_lt Hi), ?(bi_lt Hj); reflexivity.
Qed.
Lemma bc_err a b : a <> b -> a <> 1 -> b <> 1 -> bc a b = Err ValueError.
Proof. intros H1 H2 H3. unfold bc. destruct (Nat.eqb_spec a b); [lia|]. destruct (Nat.eqb_spec a 1); [lia|]. destruct (Nat.eqb_spec b 1); [lia|reflexivity]. Qed.
Lemma main_C28_sparse_add_mismatch : forall (K : Num) (m n m' n' : nat) (u u' : nat -> K) (w w' : nat -> nat -> K),
  (m <> m' \/ n <> n' -> safe_sparse_add (Sparse m n w) (Sparse m' n' w') = Err ValueError) /\
  ((2 <= n)%nat -> (2 <= n')%nat -> n <> n' ->
     safe_sparse_add (Dense (A1 n u)) (Dense (A1 n' u')) = Err ValueError /\
     safe_sparse_add (Dense (A1 n u)) (Sparse n' 1 w') = Err ValueError /\
     safe_sparse_add (Dense (A1 n u)) (Sparse 1 n' w') = Err ValueError /\
     safe_sparse_add (Sparse m n' w) (Dense (A1 n u)) = Err ValueError /\
     safe_sparse_add (Dense (A2 m n w)) (Dense (A2 m n' w')) = Err ValueError /\
     safe_sparse_add (Sparse m n w) (Dense (A2 m n' w')) = Err ValueError).
Proof.
  intros K m n m' n' u u' w w'. split.
  - intros H. cbn [safe_sparse_add]. destruct (Nat.eqb_spec m m'), (Nat.eqb_spec n n'); cbn [andb]; try reflexivity. lia.
  - intros Hn Hn' Hd. repeat split; cbn [safe_sparse_add toarray ndim Nat.eqb andb np_add ravel]; rewrite ?bc_same; cbn [bind];
      rewrite ?Nat.mul_1_r, ?Nat.mul_1_l; rewrite bc_err by lia; reflexivity.
Qed.
