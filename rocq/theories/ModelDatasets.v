(** Model of copt/datasets.py: the dataset loaders as programs over a small
    file system, a network and the file formats they decode.

    A loader is a [prog]: a tree of primitive file and network operations.
    Running it to the end is [run]; being killed after [n] primitive operations
    is [crash].  Simplifications: writes reach the disk when they are issued (no
    buffering); the path tests of [os.path.exists] see files only, except for
    the data directory itself; a network failure is an exception raised by the
    download call; labels are integers; the decoders (tar, npy, bz2, svmlight)
    and md5 are arbitrary functions that may raise any exception. *)
From Coq Require Import String.
From Coq Require Import List ZArith Bool Arith.
From Verif Require Import Vec.
Import ListNotations.
Open Scope string_scope.

(** Paths are lists of components; [os.path.join] appends. *)
Definition path := list string.
Definition path_eqb (p q : path) : bool := if list_eq_dec string_dec p q then true else false.
Definition bytes := list Z.

(** The machine: file contents, directories, and how many downloads were made. *)
Record world := { w_files : path -> option bytes; w_dirs : path -> bool; w_count : nat }.

Definition put (p : path) (c : option bytes) (w : world) : world :=
  {| w_files := fun q => if path_eqb p q then c else w_files w q;
     w_dirs := w_dirs w; w_count := w_count w |}.

(** [q] is [p] or one of its ancestors. *)
Definition prefix_of (q p : path) : bool := path_eqb (firstn (length q) p) q.
Definition mkdirs (p : path) (w : world) : world :=
  {| w_files := w_files w; w_dirs := fun q => prefix_of q p || w_dirs w q; w_count := w_count w |}.
Definition tick (w : world) : world :=
  {| w_files := w_files w; w_dirs := w_dirs w; w_count := S (w_count w) |}.

(** Primitive operations.  [Makedirs tf] is [gfile.makedirs] when [tf] (silent on
    an existing directory) and [os.makedirs] otherwise (lines 40-48). *)
Inductive prog (A : Type) : Type :=
| Ret : A -> prog A
| Raise : exc -> prog A
| FileExists : path -> (bool -> prog A) -> prog A
| DirExists : path -> (bool -> prog A) -> prog A
| Makedirs : bool -> path -> prog A -> prog A
| Fetch : string -> (bytes -> prog A) -> prog A
| Create : path -> prog A -> prog A
| Append : path -> bytes -> prog A -> prog A
| ReadFile : path -> (bytes -> prog A) -> prog A
| Remove : path -> prog A -> prog A.
Arguments Ret {A} _.
Arguments Raise {A} _.
Arguments FileExists {A} _ _.
Arguments DirExists {A} _ _.
Arguments Makedirs {A} _ _ _.
Arguments Fetch {A} _ _.
Arguments Create {A} _ _.
Arguments Append {A} _ _ _.
Arguments ReadFile {A} _ _.
Arguments Remove {A} _ _.

Fixpoint pbind {A B} (p : prog A) (f : A -> prog B) : prog B :=
  match p with
  | Ret a => f a
  | Raise e => Raise e
  | FileExists q k => FileExists q (fun b => pbind (k b) f)
  | DirExists q k => DirExists q (fun b => pbind (k b) f)
  | Makedirs tf q k => Makedirs tf q (pbind k f)
  | Fetch u k => Fetch u (fun d => pbind (k d) f)
  | Create q k => Create q (pbind k f)
  | Append q d k => Append q d (pbind k f)
  | ReadFile q k => ReadFile q (fun d => pbind (k d) f)
  | Remove q k => Remove q (pbind k f)
  end.
Declare Scope prog_scope.
Delimit Scope prog_scope with prog.
Notation "x <-- m ;; f" := (pbind m (fun x => f))
  (at level 61, m at next level, right associativity) : prog_scope.

(** The result of a pure decoder, as a program. *)
Definition plift {A} (r : result A) : prog A := match r with Ok a => Ret a | Err e => Raise e end.

Definition parent (p : path) : path := removelast p.

(** One primitive operation: the exception it raises, or the next program and
    world.  [net n u]: what the [n]-th download, of url [u], yields. *)
Definition step {A} (net : nat -> string -> result bytes) (p : prog A) (w : world)
  : result A + (prog A * world) :=
  match p with
  | Ret a => inl (Ok a)
  | Raise e => inl (Err e)
  | FileExists q k => inr (k (match w_files w q with Some _ => true | None => false end), w)
  | DirExists q k => inr (k (w_dirs w q), w)
  | Makedirs tf q k =>
      if w_dirs w q && negb tf then inl (Err FileExistsError) else inr (k, mkdirs q w)
  | Fetch u k =>
      match net (w_count w) u with
      | Ok d => inr (k d, tick w)
      | Err e => inr (Raise e, tick w)
      end
  | Create q k =>                                              (* open(q, "wb") *)
      if w_dirs w (parent q) then inr (k, put q (Some []) w) else inl (Err FileNotFoundError)
  | Append q d k =>
      match w_files w q with
      | Some c => inr (k, put q (Some (c ++ d)%list) w)
      | None => inl (Err FileNotFoundError)
      end
  | ReadFile q k =>
      match w_files w q with
      | Some c => inr (k c, w)
      | None => inl (Err FileNotFoundError)
      end
  | Remove q k =>
      match w_files w q with
      | Some _ => inr (k, put q None w)
      | None => inl (Err FileNotFoundError)
      end
  end.

(** Run to the end: final world and returned value or exception. *)
Fixpoint run {A} (net : nat -> string -> result bytes) (p : prog A) (w : world) {struct p}
  : world * result A :=
  match p with
  | Ret a => (w, Ok a)
  | Raise e => (w, Err e)
  | FileExists q k => run net (k (match w_files w q with Some _ => true | None => false end)) w
  | DirExists q k => run net (k (w_dirs w q)) w
  | Makedirs tf q k =>
      if w_dirs w q && negb tf then (w, Err FileExistsError) else run net k (mkdirs q w)
  | Fetch u k =>
      match net (w_count w) u with
      | Ok d => run net (k d) (tick w)
      | Err e => (tick w, Err e)
      end
  | Create q k =>
      if w_dirs w (parent q) then run net k (put q (Some []) w) else (w, Err FileNotFoundError)
  | Append q d k =>
      match w_files w q with
      | Some c => run net k (put q (Some (c ++ d)%list) w)
      | None => (w, Err FileNotFoundError)
      end
  | ReadFile q k =>
      match w_files w q with Some c => run net (k c) w | None => (w, Err FileNotFoundError) end
  | Remove q k =>
      match w_files w q with Some _ => run net k (put q None w) | None => (w, Err FileNotFoundError) end
  end.

(** Killed after at most [n] primitive operations: the world left behind. *)
Fixpoint crash {A} (net : nat -> string -> result bytes) (n : nat) (p : prog A) (w : world) : world :=
  match n with
  | O => w
  | S m => match step net p w with
           | inl _ => w
           | inr (p', w') => crash net m p' w'
           end
  end.

(** scipy's CSR matrix built from the triple (data, indices, indptr), with the
    shape inferred: [len(indptr) - 1] rows, [max(indices) + 1] columns.  The
    constructor raises ValueError when there is no index to infer from or the
    arrays disagree (scipy.sparse [_cs_matrix.__init__] and [check_format]). *)
Record csr (V : Type) := { c_data : list V; c_indices : list Z; c_indptr : list Z; c_rows : Z; c_cols : Z }.
Arguments c_data {V} _.
Arguments c_indices {V} _.
Arguments c_indptr {V} _.
Arguments c_rows {V} _.
Arguments c_cols {V} _.

Definition maxZ (l : list Z) : Z := fold_right Z.max (hd 0%Z l) l.

Definition csr_matrix {V} (d : list V) (ix ip : list Z) : result (csr V) :=
  match ix with
  | [] => Err ValueError
  | _ =>
    if Nat.eqb (length ip) 0 then Err ValueError
    else if negb (hd 0%Z ip =? 0)%Z then Err ValueError
    else if negb (Nat.eqb (length ix) (length d)) then Err ValueError
    else if (Z.of_nat (length ix) <? last ip 0%Z)%Z then Err ValueError
    else let nnz := Z.to_nat (last ip 0%Z) in
         Ok {| c_data := firstn nnz d; c_indices := firstn nnz ix; c_indptr := ip;
               c_rows := Z.of_nat (length ip) - 1; c_cols := maxZ ix + 1 |}
  end.

(** [sparse.vstack((a, b))]: ValueError when the column counts differ; the row
    pointers of [b] are shifted by the number of entries of [a]. *)
Definition vstack {V} (a b : csr V) : result (csr V) :=
  if (c_cols a =? c_cols b)%Z
  then Ok {| c_data := c_data a ++ c_data b;
             c_indices := c_indices a ++ c_indices b;
             c_indptr := c_indptr a ++ map (Z.add (last (c_indptr a) 0%Z)) (tl (c_indptr b));
             c_rows := c_rows a + c_rows b; c_cols := c_cols a |}%list
  else Err ValueError.

(** The formats the loaders decode and encode. *)
Record formats (V : Type) := {
  f_untar : bytes -> result (list (path * option bytes));   (* members; None: not a regular file *)
  f_npv : bytes -> result (list V);                         (* np.load of a float array *)
  f_npi : bytes -> result (list Z);                         (* np.load of an integer array *)
  f_savev : list V -> bytes;                                (* np.save *)
  f_savei : list Z -> bytes;
  f_bunzip : bytes -> result bytes;                         (* bz2.BZ2File(..).read() *)
  f_svm : bytes -> result (list V * list Z * list Z * list Z); (* load_svmlight_file: data, indices, indptr, y *)
  f_md5 : bytes -> string }.
Arguments f_untar {V} _ _.
Arguments f_npv {V} _ _.
Arguments f_npi {V} _ _.
Arguments f_savev {V} _ _.
Arguments f_savei {V} _ _.
Arguments f_bunzip {V} _ _.
Arguments f_svm {V} _ _.
Arguments f_md5 {V} _ _.

Section LOADERS.
Context {V : Type} (F : formats V).
Open Scope prog_scope.

(** [np.load] of a float and of an integer array file. *)
Definition load_v (p : path) : prog (list V) := ReadFile p (fun c => plift (f_npv F c)).
Definition load_i (p : path) : prog (list Z) := ReadFile p (fun c => plift (f_npi F c)).

(** Lines 74-79: copy a member in chunks of 5000 bytes.  [fuel] bounds the
    [while True] loop; [length c + 1] iterations always suffice. *)
Fixpoint copy_loop {A} (fuel chunk : nat) (p : path) (c : bytes) (k : prog A) : prog A :=
  match fuel with
  | O => Raise OutOfFuel
  | S n =>
      let data := firstn chunk c in                            (* f_orig.read(chunk) *)
      if Nat.eqb (length data) 0 then k                        (* if not data: break *)
      else Append p data (copy_loop n chunk p (skipn chunk c) k)
  end.
Definition write_file {A} (chunk : nat) (p : path) (c : bytes) (k : prog A) : prog A :=
  Create p (copy_loop (S (length c)) chunk p c k).

(** Lines 67-81: [for member in tar.getmembers(): ...]. *)
Fixpoint extract (chunk : nat) (dir : path) (ms : list (path * option bytes)) {A} (k : prog A) : prog A :=
  match ms with
  | [] => k
  | (nm, None) :: ms' => extract chunk dir ms' k               (* lines 69-70: continue *)
  | (nm, Some c) :: ms' => write_file chunk (dir ++ nm)%list c (extract chunk dir ms' k)
  end.

(** Lines 83-89 and 94-105: the four arrays of one part, and its matrix. *)
Definition load_part (dir : path) (xd xi xp y : string) : prog (csr V * list Z) :=
  d <-- load_v (dir ++ [xd])%list;;
  ix <-- load_i (dir ++ [xi])%list;;
  ip <-- load_i (dir ++ [xp])%list;;
  t <-- load_i (dir ++ [y])%list;;
  m <-- plift (csr_matrix d ix ip);;
  Ret (m, t).
Definition load_train (dir : path) := load_part dir "X_train.data.npy" "X_train.indices.npy" "X_train.indptr.npy" "y_train.npy".
Definition load_test (dir : path) := load_part dir "X_test.data.npy" "X_test.indices.npy" "X_test.indptr.npy" "y_test.npy".

(** Lines 83-119: what follows the download. *)
Definition load_rest (subset : string) (dir : path) : prog (csr V * list Z) :=
  tr <-- load_train dir;;
  if String.eqb subset "train" then Ret tr
  else te <-- load_test dir;;
       if String.eqb subset "test" then Ret te
       else if String.eqb subset "full"
       then m <-- plift (vstack (fst tr) (fst te));;
            Ret (m, (snd tr ++ snd te)%list)
       else Raise ValueError.

Definition dataset_url (name : string) : string :=
  "https://storage.googleapis.com/copt-doc/datasets/" ++ name ++ ".tar.gz".

(** [_load_dataset], lines 36-119; [tf] is HAS_TF. *)
Definition load_dataset (tf : bool) (name subset : string) (data_dir : path) : prog (csr V * list Z) :=
  let dir := (data_dir ++ [name])%list in
  FileExists (dir ++ ["X_train.data.npy"])%list (fun b1 =>
  FileExists (dir ++ ["X_train.indices.npy"])%list (fun b2 =>
  FileExists (dir ++ ["X_train.indptr.npy"])%list (fun b3 =>
  FileExists (dir ++ ["y_train.npy"])%list (fun b4 =>
  if negb (b1 && b2 && b3 && b4)
  then Makedirs tf dir                                          (* line 57 *)
       (Fetch (dataset_url name) (fun tgz =>                    (* lines 62-63 *)
        ms <-- plift (f_untar F tgz);;                          (* line 66 *)
        extract 5000 data_dir ms (load_rest subset dir)))
  else load_rest subset dir)))).

(** Lines 122-158, 161-188, 285-312, 249-264, 267-282. *)
Definition load_madelon tf subset data_dir := load_dataset tf "madelon" subset data_dir.
Definition load_rcv1 tf subset data_dir := load_dataset tf "rcv1" subset data_dir.
Definition load_gisette tf subset data_dir := load_dataset tf "gisette" subset data_dir.
Definition load_covtype tf data_dir := load_dataset tf "covtype" "train" data_dir.
Definition load_news20 tf data_dir := load_dataset tf "news20" "train" data_dir.

(** Block size of urlretrieve and of the other copying done by the libraries. *)
Definition block : nat := N.to_nat 8192.

(** [urllib.request.urlretrieve(url, p)]: download straight into [p], in blocks
    of 8192 bytes. *)
Definition urlretrieve {A} (url : string) (p : path) (k : prog A) : prog A :=
  Fetch url (fun d => write_file block p d k).

(** [if not os.path.exists(DATA_DIR): os.makedirs(DATA_DIR)]. *)
Definition ensure_dir {A} (dir : path) (k : prog A) : prog A :=
  DirExists dir (fun b => if b then k else Makedirs false dir k).

(** [np.save] of the four arrays (lines 236-239, 398-401, 456-459). *)
Definition save_arrays {A} (pd pi pp pt : path) (d : list V) (ix ip y : list Z) (k : prog A) : prog A :=
  write_file block pd (f_savev F d)
  (write_file block pi (f_savei F ix)
  (write_file block pp (f_savei F ip)
  (write_file block pt (f_savei F y) k))).

(** Lines 240-244: reload the saved arrays. *)
Definition load_arrays (pd pi pp pt : path) : prog (csr V * list Z) :=
  d <-- load_v pd;;
  ix <-- load_i pi;;
  ip <-- load_i pp;;
  m <-- plift (csr_matrix d ix ip);;
  t <-- load_i pt;;
  Ret (m, t).

(** Line 245: [((y + 1) // 2).astype(np.int)]. *)
Definition relabel (y : list Z) : list Z := map (fun v => (v + 1) / 2)%Z y.

(** Lines 231-239 and 393-401, the common part of load_url and load_kdd12: unpack
    the downloaded file next to itself, parse it and save the arrays. *)
Definition unpack_save (dir : path) (bz txt fd fi fp ft : string) (k : prog (csr V * list Z))
  : prog (csr V * list Z) :=
  ReadFile (dir ++ [bz])%list (fun z =>
  data <-- plift (f_bunzip F z);;
  write_file block (dir ++ [txt])%list data
  (ReadFile (dir ++ [txt])%list (fun t =>
   q <-- plift (f_svm F t);;
   let '(d, ix, ip, y) := q in
   save_arrays (dir ++ [fd])%list (dir ++ [fi])%list (dir ++ [fp])%list (dir ++ [ft])%list d ix ip y k))).

Definition url_url := "https://www.csie.ntu.edu.tw/~cjlin/libsvmtools/datasets/binary/url_combined.bz2".
Definition url_md5 := "83673b8f4224c81968af2fb6022ee487".
Definition kdd10_url := "https://www.csie.ntu.edu.tw/~cjlin/libsvmtools/datasets/binary/kddb.bz2".
Definition kdd10_md5 := "bc5b630fef6989c2f201039fef497e14".
Definition kdd12_url := "https://www.csie.ntu.edu.tw/~cjlin/libsvmtools/datasets/binary/kdd12.bz2".
Definition kdd12_md5 := "c6fc57735c3cf687dd182d60a7b51cda".
Definition criteo_url := "https://s3-us-west-2.amazonaws.com/criteo-public-svm-data/criteo.kaggle2014.svm.tar.gz".
Definition criteo_md5 := "d852b491d1b3afa26c1e7b49594ffc3e".

(** [load_url], lines 191-246.  [fuel]: the recursion depth (line 230 calls
    load_url again, with the default [md5_check=True]). *)
Fixpoint load_url (fuel : nat) (md5_check : bool) (dir : path) : prog (csr V * list Z) :=
  match fuel with
  | O => Raise OutOfFuel
  | S n =>
      let fp := (dir ++ ["url_combined.bz2"])%list in
      let tail :=
        r <-- load_arrays (dir ++ ["url_combined.data.npy"])%list (dir ++ ["url_combined.indices.npy"])%list
                (dir ++ ["url_combined.indptr.npy"])%list (dir ++ ["url_combined.target.npy"])%list;;
        Ret (fst r, relabel (snd r)) in
      let unpack :=
        unpack_save dir "url_combined.bz2" "url_combined" "url_combined.data.npy"
          "url_combined.indices.npy" "url_combined.indptr.npy" "url_combined.target.npy" tail in
      ensure_dir dir
      (FileExists fp (fun b =>
       if b then tail
       else urlretrieve url_url fp
            (if md5_check
             then ReadFile fp (fun c =>
                  if String.eqb (f_md5 F c) url_md5 then unpack
                  else Remove fp (load_url n true dir))
             else unpack)))
  end.

(** [load_kdd10], lines 315-350: the md5 test is made on every call, and the file
    is parsed directly. *)
Fixpoint load_kdd10 (fuel : nat) (md5_check : bool) (dir : path) : prog (csr V * list Z) :=
  match fuel with
  | O => Raise OutOfFuel
  | S n =>
      let fp := (dir ++ ["kddb.bz2"])%list in
      let parse :=
        ReadFile fp (fun z =>
        t <-- plift (f_bunzip F z);;
        q <-- plift (f_svm F t);;
        let '(d, ix, ip, y) := q in
        m <-- plift (csr_matrix d ix ip);;
        Ret (m, y)) in
      let check :=
        if md5_check
        then ReadFile fp (fun c =>
             if String.eqb (f_md5 F c) kdd10_md5 then parse
             else Remove fp (load_kdd10 n true dir))
        else parse in
      ensure_dir dir
      (FileExists fp (fun b => if b then check else urlretrieve kdd10_url fp check))
  end.

(** [load_kdd12], lines 353-408.  On an md5 mismatch line 392 calls load_url. *)
Definition load_kdd12 (fuel : nat) (md5_check : bool) (dir : path) : prog (csr V * list Z) :=
  match fuel with
  | O => Raise OutOfFuel
  | S n =>
      let fp := (dir ++ ["kdd12.bz2"])%list in
      let tail :=
        r <-- load_arrays (dir ++ ["kdd12.data.npy"])%list (dir ++ ["kdd12.indices.npy"])%list
                (dir ++ ["kdd12.indptr.npy"])%list (dir ++ ["kdd12.target.npy"])%list;;
        Ret (fst r, relabel (snd r)) in
      let unpack :=
        unpack_save dir "kdd12.bz2" "kdd12" "kdd12.data.npy"
          "kdd12.indices.npy" "kdd12.indptr.npy" "kdd12.target.npy" tail in
      ensure_dir dir
      (FileExists fp (fun b =>
       if b then tail
       else urlretrieve kdd12_url fp
            (if md5_check
             then ReadFile fp (fun c =>
                  if String.eqb (f_md5 F c) kdd12_md5 then unpack
                  else Remove fp (load_url n true dir))
             else unpack)))
  end.

(** [load_criteo], lines 411-467: the archive is unpacked before its md5 is
    checked; labels are returned as stored. *)
Fixpoint load_criteo (fuel : nat) (md5_check : bool) (dir : path) : prog (csr V * list Z) :=
  match fuel with
  | O => Raise OutOfFuel
  | S n =>
      let fp := (dir ++ ["criteo.kaggle2014.svm.tar.gz"])%list in
      let pd := (dir ++ ["criteo.kaggle2014.data.npz.npy"])%list in
      let pi := (dir ++ ["criteo.kaggle2014.indices.npy"])%list in
      let pp := (dir ++ ["criteo.kaggle2014.indptr.npy"])%list in
      let pt := (dir ++ ["criteo.kaggle2014.target.npy"])%list in
      let parse :=
        ReadFile (dir ++ ["criteo.kaggle2014.train.svm"])%list (fun t =>
        q <-- plift (f_svm F t);;
        let '(d, ix, ip, y) := q in
        m <-- plift (csr_matrix d ix ip);;
        save_arrays pd pi pp pt d ix ip y (Ret (m, y))) in
      ensure_dir dir
      (FileExists fp (fun b =>
       if b then load_arrays pd pi pp pt
       else urlretrieve criteo_url fp
            (ReadFile fp (fun tgz =>
             ms <-- plift (f_untar F tgz);;
             extract block dir ms
             (if md5_check
              then ReadFile fp (fun c =>
                   if String.eqb (f_md5 F c) criteo_md5 then parse
                   else Remove fp (load_criteo n true dir))
              else parse)))))
  end.

End LOADERS.
