(** Specification vocabulary for the dataset loaders: what it means for a matrix
    to be a list of sparse rows, for a part of a dataset to be on disk or in an
    archive, and which rows a subset name denotes. *)
From Coq Require Import String.
From Coq Require Import List ZArith Bool Arith.
From Verif Require Import Vec ModelDatasets.
Import ListNotations.
Open Scope string_scope.

Section SPEC.
Context {V : Type} (F : formats V).

(** A sparse row: (column, value) pairs in storage order. *)
Definition row := list (Z * V).

(** Where each row starts: 0, then the running total of the row lengths. *)
Fixpoint starts (k : Z) (rows : list row) : list Z :=
  match rows with
  | [] => [k]
  | r :: rs => k :: starts (k + Z.of_nat (List.length r)) rs
  end.

Definition encodes (rows : list row) (d : list V) (ix ip : list Z) : Prop :=
  d = map snd (concat rows) /\ ix = map fst (concat rows) /\ ip = starts 0 rows.

(** [n] is one more than the largest column that holds an entry. *)
Definition has_width (rows : list row) (n : Z) : Prop :=
  (forall c v, In (c, v) (concat rows) -> (c < n)%Z) /\
  exists c v, In (c, v) (concat rows) /\ n = (c + 1)%Z.

(** The matrix [m] has exactly the rows [rows], and [n] columns. *)
Definition is_matrix (m : csr V) (rows : list row) (n : Z) : Prop :=
  encodes rows (c_data m) (c_indices m) (c_indptr m) /\
  c_rows m = Z.of_nat (List.length rows) /\ c_cols m = n.

(** A part ("train" or "test") of a dataset, as found by a lookup function giving
    the contents of the file of a given name. *)
Definition part_in (look : string -> bytes -> Prop) (part : string) (rows : list row) (y : list Z) : Prop :=
  exists d ix ip cd ci cp ct,
    encodes rows d ix ip /\
    look ("X_" ++ part ++ ".data.npy") cd /\ f_npv F cd = Ok d /\
    look ("X_" ++ part ++ ".indices.npy") ci /\ f_npi F ci = Ok ix /\
    look ("X_" ++ part ++ ".indptr.npy") cp /\ f_npi F cp = Ok ip /\
    look ("y_" ++ part ++ ".npy") ct /\ f_npi F ct = Ok y.

(** On disk, in the directory [dir]. *)
Definition on_disk (w : world) (dir : path) (f : string) (c : bytes) : Prop :=
  w_files w (dir ++ [f])%list = Some c.

(** In an archive, below the top directory [name]. *)
Definition in_archive (ms : list (path * option bytes)) (name f : string) (c : bytes) : Prop :=
  In ([name; f], Some c) ms.

(** A well-formed archive of dataset [name]: every member listed once, every
    regular file directly below the top directory. *)
Definition tidy (ms : list (path * option bytes)) (name : string) : Prop :=
  NoDup (map fst ms) /\ (forall p c, In (p, Some c) ms -> exists f, p = [name; f]).

Record dataset := { ds_train : list row; ds_ytrain : list Z; ds_ntrain : Z;
                    ds_test : list row; ds_ytest : list Z; ds_ntest : Z }.

Definition good_archive (tgz : bytes) (name : string) (ds : dataset) : Prop :=
  exists ms, f_untar F tgz = Ok ms /\ tidy ms name /\
    part_in (in_archive ms name) "train" (ds_train ds) (ds_ytrain ds) /\
    part_in (in_archive ms name) "test" (ds_test ds) (ds_ytest ds) /\
    has_width (ds_train ds) (ds_ntrain ds) /\ has_width (ds_test ds) (ds_ntest ds).

Definition stored (w : world) (dir : path) (ds : dataset) : Prop :=
  part_in (on_disk w dir) "train" (ds_train ds) (ds_ytrain ds) /\
  part_in (on_disk w dir) "test" (ds_test ds) (ds_ytest ds) /\
  has_width (ds_train ds) (ds_ntrain ds) /\ has_width (ds_test ds) (ds_ntest ds).

(** The documented meaning of the subset argument. *)
Definition subset_of (ds : dataset) (subset : string) (rows : list row) (y : list Z) (n : Z) : Prop :=
  (subset = "train" /\ rows = ds_train ds /\ y = ds_ytrain ds /\ n = ds_ntrain ds) \/
  (subset = "test" /\ rows = ds_test ds /\ y = ds_ytest ds /\ n = ds_ntest ds) \/
  (subset = "full" /\ rows = (ds_train ds ++ ds_test ds)%list /\ y = (ds_ytrain ds ++ ds_ytest ds)%list /\
   n = ds_ntrain ds /\ n = ds_ntest ds).

(** The loader returned the matrix with these rows and these labels. *)
Definition returns (r : result (csr V * list Z)) (rows : list row) (y : list Z) (n : Z) : Prop :=
  exists m, r = Ok (m, y) /\ is_matrix m rows n.

(** One of the four training files is missing. *)
Definition train_missing (w : world) (dir : path) : Prop :=
  exists f, In f ["X_train.data.npy"; "X_train.indices.npy"; "X_train.indptr.npy"; "y_train.npy"] /\
            w_files w (dir ++ [f])%list = None.

(** np.save writes what np.load reads back. *)
Definition npy_roundtrip : Prop :=
  (forall l, f_npv F (f_savev F l) = Ok l) /\ (forall l, f_npi F (f_savei F l) = Ok l).

(** The downloaded text file [t] holds these rows and raw labels. *)
Definition svm_holds (t : bytes) (rows : list row) (y : list Z) (n : Z) : Prop :=
  exists d ix ip, f_svm F t = Ok (d, ix, ip, y) /\ encodes rows d ix ip /\ has_width rows n.

(** [c] is a genuine bz2 file with this md5 digest and this contents. *)
Definition bz_holds (md5 : string) (c : bytes) (rows : list row) (y : list Z) (n : Z) : Prop :=
  f_md5 F c = md5 /\ exists t, f_bunzip F c = Ok t /\ svm_holds t rows y n.

(** From download number [k] on, the server delivers [j] files whose digest is
    wrong, and then [c]. *)
Definition serves_after (net : nat -> string -> result bytes) (u md5 : string) (k j : nat) (c : bytes) : Prop :=
  net (k + j)%nat u = Ok c /\
  forall i, (i < j)%nat -> exists b, net (k + i)%nat u = Ok b /\ f_md5 F b <> md5.

(** The 0/1 labels the documentation promises for raw labels -1/+1. *)
Definition zero_one (raw : list Z) (y : list Z) : Prop :=
  Forall2 (fun a b => (a = 1 -> b = 1) /\ (a <> 1 -> b = 0))%Z raw y.

End SPEC.
Arguments row : clear implicits.
Arguments dataset : clear implicits.

(** A criteo archive: every member listed once, every regular file at the top
    level and none named like the archive itself. *)
Definition criteo_tidy (ms : list (path * option bytes)) : Prop :=
  NoDup (map fst ms) /\
  (forall p c, In (p, Some c) ms -> exists f, p = [f] /\ f <> "criteo.kaggle2014.svm.tar.gz").
