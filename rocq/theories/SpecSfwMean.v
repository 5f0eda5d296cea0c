(** * SpecSfwMean: all sequences of batches of a stochastic Frank-Wolfe run *)
From Coq Require Import List.
Import ListNotations.

(** all sequences of [k] elements of [l] *)
Fixpoint seqs {A} (l : list A) (k : nat) : list (list A) :=
  match k with O => [[]] | S k' => flat_map (fun w => map (fun b => w ++ [b]) l) (seqs l k') end.
(** the index array of epoch [it] of a run that uses the batches [w] in order, [nb] per epoch
    (utils.py lines 78-83: sample_batches concatenates the batches; randomized.py lines 875-879) *)
Definition batch_draws (nb : nat) (w : list (list nat)) (it : nat) : list nat := concat (firstn nb (skipn (it * nb) w)).
(** all the values of np.random.choice(n, size=k, replace=False): sequences of [k] distinct elements of [l] *)
Fixpoint arrangements (l : list nat) (k : nat) : list (list nat) :=
  match k with
  | O => [[]]
  | S k' => flat_map (fun i => map (cons i) (arrangements (remove PeanoNat.Nat.eq_dec i l) k')) l
  end.
