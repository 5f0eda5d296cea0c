(** * Dataset loaders (copt/datasets.py): C70-C72 *)
From Coq Require Import String.
From Coq Require Import List ZArith Bool Arith Lia.
From Verif Require Import Vec ModelDatasets SpecDatasets DatasetsFacts DatasetsMain DatasetsMain2 DatasetsRuns DatasetsNamed.
Import ListNotations.
Local Open Scope list_scope.

(** C70.  Full property (false): a call that is killed at any point is followed by a successful one.
    Without TensorFlow, os.makedirs raises on the directory the first call made; with it, the existence
    test passes on truncated training files and never looks at the test files; load_url trusts a
    partial download.  Proved: an uninterrupted first call is complete and is enough for all later ones;
    with TensorFlow, every crash that leaves a training file missing is recovered from; load_kdd10
    recovers from every crash. *)
Theorem C70_first_call :
  forall (V : Type) (F : formats V) net w tf name subset dd tgz ds rows y n,
    train_missing w (dd ++ [name]) ->
    (w_dirs w (dd ++ [name]) = true -> tf = true) ->
    net (w_count w) (dataset_url name) = Ok tgz -> good_archive F tgz name ds ->
    subset_of ds subset rows y n ->
    exists w' r, run net (load_dataset F tf name subset dd) w = (w', r) /\ returns r rows y n /\
      (forall net' tf' subset' rows' y' n', subset_of ds subset' rows' y' n' ->
         exists r', run net' (load_dataset F tf' name subset' dd) w' = (w', r') /\ returns r' rows' y' n').
Proof. exact main_C70_first_call. Qed.
Print Assumptions C70_first_call.
Theorem C70_recover_partial :
  forall (V : Type) (F : formats V) net net0 w k subset0 name subset dd tgz ds rows y n,
    let w1 := crash net0 k (load_dataset F true name subset0 dd) w in
    train_missing w1 (dd ++ [name]) ->
    net (w_count w1) (dataset_url name) = Ok tgz -> good_archive F tgz name ds ->
    subset_of ds subset rows y n ->
    exists r, snd (run net (load_dataset F true name subset dd) w1) = r /\ returns r rows y n.
Proof. exact main_C70_recover_partial. Qed.
Print Assumptions C70_recover_partial.
Theorem C70_kdd10_recover :
  forall (V : Type) (F : formats V) net net0 w dir k fuel0 md5_0 c rows y n fuel,
    (forall b, f_md5 F b = kdd10_md5 -> bz_holds F kdd10_md5 b rows y n) ->
    let w1 := crash net0 k (load_kdd10 F fuel0 md5_0 dir) w in
    net (w_count w1) kdd10_url = Ok c -> f_md5 F c = kdd10_md5 -> (1 < fuel)%nat ->
    exists w' r, run net (load_kdd10 F fuel true dir) w1 = (w', r) /\ returns r rows y n.
Proof. exact main_C70_kdd10_recover. Qed.
Print Assumptions C70_kdd10_recover.
Theorem C70_retry_refuted :
  forall (V : Type) (F : formats V) net w subset0 name dd,
    train_missing w (dd ++ [name]) -> w_dirs w (dd ++ [name]) = false ->
    train_missing (crash net 5 (load_dataset F false name subset0 dd) w) (dd ++ [name]) /\
    forall k, (5 <= k)%nat ->
    let w1 := crash net k (load_dataset F false name subset0 dd) w in
    train_missing w1 (dd ++ [name]) ->
    forall net' subset,
      run net' (load_dataset F false name subset dd) w1 = (w1, Err FileExistsError).
Proof. exact main_C70_retry_refuted. Qed.
Print Assumptions C70_retry_refuted.
Theorem C70_incomplete_refuted :
  forall (V : Type) (F : formats V) w tf name dd,
    ~ train_missing w (dd ++ [name]) ->
    w_files w ((dd ++ [name]) ++ ["X_test.data.npy"%string]) = None ->
    forall net subset, subset <> "train"%string ->
      exists e, run net (load_dataset F tf name subset dd) w = (w, Err e).
Proof. exact main_C70_incomplete_refuted. Qed.
Print Assumptions C70_incomplete_refuted.
Theorem C70_truncated_refuted :
  exists k, let w1 := crash (serve [31; 1]%Z) k (load_dataset toy true "toy" "full" DATA) fresh in
    ~ train_missing w1 (DATA ++ ["toy"%string]) /\ left_in w1 "y_train.npy" = Some [] /\
    forall net subset, raised (snd (run net (load_dataset toy true "toy" subset DATA) w1)) = Some ValueError.
Proof. exact main_C70_truncated_refuted. Qed.
Print Assumptions C70_truncated_refuted.
Theorem C70_url_refuted :
  forall (V : Type) (F : formats V) net w dir c fuel md5_check,
    (0 < fuel)%nat -> w_dirs w dir = true ->
    w_files w (dir ++ ["url_combined.bz2"%string]) = None ->
    w_files w (dir ++ ["url_combined.data.npy"%string]) = None ->
    net (w_count w) url_url = Ok c ->
    (let w1 := crash net 4 (load_url F fuel md5_check dir) w in
     w_files w1 (dir ++ ["url_combined.bz2"%string]) = Some [] /\
     w_files w1 (dir ++ ["url_combined.data.npy"%string]) = None) /\
    forall k b, let w1 := crash net k (load_url F fuel md5_check dir) w in
      w_files w1 (dir ++ ["url_combined.bz2"%string]) = Some b ->
      w_files w1 (dir ++ ["url_combined.data.npy"%string]) = None ->
      forall net' fuel' md5', (0 < fuel')%nat ->
        run net' (load_url F fuel' md5' dir) w1 = (w1, Err FileNotFoundError).
Proof. exact main_C70_url_refuted. Qed.
Print Assumptions C70_url_refuted.
Example C70_nonvacuous : train_missing fresh (DATA ++ ["toy"%string]) /\ w_dirs fresh (DATA ++ ["toy"%string]) = false /\
  good_archive toy [31; 1]%Z "toy" (toy_ds toy_rows_te 3) /\
  subset_of (toy_ds toy_rows_te 3) "full" (toy_rows_tr ++ toy_rows_te) ([1; 0; 1] ++ [0; 1])%Z 3.
Proof.
  split; [exact fresh_missing|]. split; [reflexivity|]. split; [exact toy_archive|].
  right. right. repeat split.
Qed.
(** killed after ten operations (in the middle of the extraction) with TensorFlow's makedirs: a
    training file is missing, and the next call returns all five rows *)
Example C70_recover_nonvacuous :
  let w1 := crash (serve [31; 1]%Z) 10 (load_dataset toy true "toy" "full" DATA) fresh in
  train_missing w1 (DATA ++ ["toy"%string]) /\
  match snd (run (serve [31; 1]%Z) (load_dataset toy true "toy" "full" DATA) w1) with
  | Ok (m, y) => (c_rows m =? 5)%Z && (Nat.eqb (List.length y) 5) | Err _ => false end = true.
Proof. split; [exists "y_train.npy"%string; split; [cbn; tauto|vm_compute; reflexivity]|vm_compute; reflexivity]. Qed.
(** the same crash without TensorFlow: the next call raises *)
Example C70_retry_run :
  let w1 := crash (serve [31; 1]%Z) 10 (load_dataset toy false "toy" "full" DATA) fresh in
  raised (snd (run (serve [31; 1]%Z) (load_dataset toy false "toy" "full" DATA) w1)) = Some FileExistsError.
Proof. vm_compute. reflexivity. Qed.
(** killed between the training and the test files *)
Example C70_incomplete_nonvacuous :
  let w1 := crash (serve [31; 1]%Z) 14 (load_dataset toy false "toy" "full" DATA) fresh in
  w_files w1 ((DATA ++ ["toy"%string]) ++ ["X_test.data.npy"%string]) = None /\
  raised (snd (run (serve [31; 1]%Z) (load_dataset toy false "toy" "train" DATA) w1)) = None.
Proof. split; vm_compute; reflexivity. Qed.
(** killed after its download: load_kdd10 downloads again *)
Example C70_kdd10_nonvacuous :
  let net := fun k (_ : string) => if Nat.eqb k 0 then Ok [66; 7]%Z else Ok [66; 1; 0]%Z in
  let w1 := crash net 5 (load_kdd10 toy 3 true DATA) fresh in
  w_files w1 (DATA ++ ["kddb.bz2"%string]) = Some [66; 7]%Z /\ w_count w1 = 1%nat /\ f_md5 toy [66; 1; 0]%Z = kdd10_md5.
Proof. repeat split; vm_compute; reflexivity. Qed.

(** each named loader fetches its own archive *)
Theorem C70_named :
  forall (V : Type) (F : formats V) net w tf subset dd tgz ds rows y n name
    (load : bool -> string -> path -> prog (csr V * list Z)) url,
    In (name, load, url)
      [("madelon"%string, load_madelon F, "https://storage.googleapis.com/copt-doc/datasets/madelon.tar.gz"%string);
       ("rcv1"%string, load_rcv1 F, "https://storage.googleapis.com/copt-doc/datasets/rcv1.tar.gz"%string);
       ("gisette"%string, load_gisette F, "https://storage.googleapis.com/copt-doc/datasets/gisette.tar.gz"%string)] ->
    train_missing w (dd ++ [name]) -> (w_dirs w (dd ++ [name]) = true -> tf = true) ->
    net (w_count w) url = Ok tgz -> good_archive F tgz name ds -> subset_of ds subset rows y n ->
    exists w' r, run net (load tf subset dd) w = (w', r) /\ returns r rows y n.
Proof. exact main_C70_named. Qed.
Print Assumptions C70_named.
Theorem C70_named_train :
  forall (V : Type) (F : formats V) net w tf dd tgz rows y n name
    (load : bool -> path -> prog (csr V * list Z)) url,
    In (name, load, url)
      [("covtype"%string, load_covtype F, "https://storage.googleapis.com/copt-doc/datasets/covtype.tar.gz"%string);
       ("news20"%string, load_news20 F, "https://storage.googleapis.com/copt-doc/datasets/news20.tar.gz"%string)] ->
    train_missing w (dd ++ [name]) -> (w_dirs w (dd ++ [name]) = true -> tf = true) ->
    net (w_count w) url = Ok tgz -> train_archive F tgz name rows y n ->
    exists w' r, run net (load tf dd) w = (w', r) /\ returns r rows y n.
Proof. exact main_C70_named_train. Qed.
Print Assumptions C70_named_train.
Example C70_named_nonvacuous : train_missing fresh (DATA ++ ["covtype"%string]) /\
  train_archive (one "covtype") [31]%Z "covtype" toy_rows_tr [1; 0; 1]%Z 3 /\
  match run (fun _ u => if String.eqb u "https://storage.googleapis.com/copt-doc/datasets/covtype.tar.gz" then Ok [31]%Z else Err ValueError)
            (load_covtype (one "covtype") false DATA) fresh with
  | (_, Ok (m, y)) => (c_rows m =? 3)%Z && (nth 1 y 7 =? 0)%Z | _ => false end = true.
Proof.
  split; [exists "y_train.npy"%string; split; [cbn; tauto|reflexivity]|].
  split; [exact (one_archive "covtype")|vm_compute; reflexivity].
Qed.

(** C71.  Full property (false for load_kdd12 and load_criteo): after a failed md5 check the named dataset
    is downloaded again and returned.  load_kdd12 then returns the URL dataset; load_criteo unpacks the
    archive before checking it, so a truncated archive raises and is never replaced.  Proved: load_url and
    load_kdd10 return exactly the genuine data after any number of bad downloads, and only genuine data;
    load_kdd12 when the first download is good; load_criteo when the bad archives can be unpacked; 0/1 labels. *)
Theorem C71_url :
  forall (V : Type) (F : formats V) net dir c rows y n,
    npy_roundtrip F -> bz_holds F url_md5 c rows y n ->
    forall j fuel w, (j < fuel)%nat ->
    w_files w (dir ++ ["url_combined.bz2"%string]) = None ->
    serves_after F net url_url url_md5 (w_count w) j c ->
    exists w' r, run net (load_url F fuel true dir) w = (w', r) /\ returns r rows (relabel y) n /\
      forall net' fuel' md5_check', (0 < fuel')%nat ->
        run net' (load_url F fuel' md5_check' dir) w' = (w', r).
Proof. exact main_C71_url. Qed.
Print Assumptions C71_url.
Theorem C71_url_only_genuine :
  forall (V : Type) (F : formats V) net dir, npy_roundtrip F ->
    forall fuel w w' m y', w_files w (dir ++ ["url_combined.bz2"%string]) = None ->
    run net (load_url F fuel true dir) w = (w', Ok (m, y')) ->
    exists k c t d ix ip y, (w_count w <= k)%nat /\ net k url_url = Ok c /\ f_md5 F c = url_md5 /\
      f_bunzip F c = Ok t /\ f_svm F t = Ok (d, ix, ip, y) /\ csr_matrix d ix ip = Ok m /\ y' = relabel y.
Proof. exact main_C71_url_only_genuine. Qed.
Print Assumptions C71_url_only_genuine.
Theorem C71_url_never :
  forall (V : Type) (F : formats V) net dir,
    (forall k, exists b, net k url_url = Ok b /\ f_md5 F b <> url_md5) ->
    forall fuel w, w_files w (dir ++ ["url_combined.bz2"%string]) = None ->
    snd (run net (load_url F fuel true dir) w) = Err OutOfFuel.
Proof. exact main_C71_url_never. Qed.
Print Assumptions C71_url_never.
Theorem C71_kdd10 :
  forall (V : Type) (F : formats V) net dir c rows y n,
    bz_holds F kdd10_md5 c rows y n ->
    forall j fuel w, (S j < fuel)%nat ->
    serves_after F net kdd10_url kdd10_md5 (w_count w) j c ->
    (forall b, w_files w (dir ++ ["kddb.bz2"%string]) = Some b -> f_md5 F b <> kdd10_md5) ->
    exists w' r, run net (load_kdd10 F fuel true dir) w = (w', r) /\ returns r rows y n.
Proof. exact main_C71_kdd10. Qed.
Print Assumptions C71_kdd10.
Theorem C71_kdd10_only_genuine :
  forall (V : Type) (F : formats V) net dir fuel w w' m y',
    run net (load_kdd10 F fuel true dir) w = (w', Ok (m, y')) ->
    exists c t d ix ip, f_md5 F c = kdd10_md5 /\ w_files w' (dir ++ ["kddb.bz2"%string]) = Some c /\
      f_bunzip F c = Ok t /\ f_svm F t = Ok (d, ix, ip, y') /\ csr_matrix d ix ip = Ok m.
Proof. exact main_C71_kdd10_only_genuine. Qed.
Print Assumptions C71_kdd10_only_genuine.
Theorem C71_kdd12_partial :
  forall (V : Type) (F : formats V) net dir c rows y n,
    npy_roundtrip F -> bz_holds F kdd12_md5 c rows y n ->
    forall fuel w md5_check, (0 < fuel)%nat ->
    w_files w (dir ++ ["kdd12.bz2"%string]) = None ->
    net (w_count w) kdd12_url = Ok c ->
    exists w' r, run net (load_kdd12 F fuel md5_check dir) w = (w', r) /\ returns r rows (relabel y) n /\
      forall net' fuel' md5_check', (0 < fuel')%nat ->
        run net' (load_kdd12 F fuel' md5_check' dir) w' = (w', r).
Proof. exact main_C71_kdd12_partial. Qed.
Print Assumptions C71_kdd12_partial.
Theorem C71_kdd12_refuted :
  forall (V : Type) (F : formats V) net dir b c rows y n,
    npy_roundtrip F -> f_md5 F b <> kdd12_md5 -> bz_holds F url_md5 c rows y n ->
    forall fuel w, (1 < fuel)%nat ->
    w_files w (dir ++ ["kdd12.bz2"%string]) = None ->
    w_files w (dir ++ ["url_combined.bz2"%string]) = None ->
    net (w_count w) kdd12_url = Ok b -> net (S (w_count w)) url_url = Ok c ->
    exists w' r, run net (load_kdd12 F fuel true dir) w = (w', r) /\ returns r rows (relabel y) n.
Proof. exact main_C71_kdd12_refuted. Qed.
Print Assumptions C71_kdd12_refuted.
Theorem C71_criteo_partial :
  forall (V : Type) (F : formats V) net dir c ms t rows y n,
    npy_roundtrip F -> f_md5 F c = criteo_md5 -> f_untar F c = Ok ms -> criteo_tidy ms ->
    In ([criteo_svm], Some t) ms -> svm_holds F t rows y n ->
    forall j fuel w, (j < fuel)%nat -> w_files w (dir ++ [criteo_file]) = None ->
    net (w_count w + j)%nat criteo_url = Ok c ->
    (forall i, (i < j)%nat -> exists b ms', net (w_count w + i)%nat criteo_url = Ok b /\
       f_md5 F b <> criteo_md5 /\ f_untar F b = Ok ms' /\ criteo_tidy ms') ->
    exists w' r, run net (load_criteo F fuel true dir) w = (w', r) /\ returns r rows y n /\
      forall net' fuel' md5_check', (0 < fuel')%nat ->
        run net' (load_criteo F fuel' md5_check' dir) w' = (w', r).
Proof. exact main_C71_criteo_partial. Qed.
Print Assumptions C71_criteo_partial.
Theorem C71_criteo_refuted :
  forall (V : Type) (F : formats V) net dir b e,
    f_untar F b = Err e ->
    forall fuel w, (0 < fuel)%nat -> w_files w (dir ++ [criteo_file]) = None ->
    w_files w (dir ++ ["criteo.kaggle2014.data.npz.npy"%string]) = None ->
    net (w_count w) criteo_url = Ok b ->
    exists w', run net (load_criteo F fuel true dir) w = (w', Err e) /\
      forall net' fuel' md5_check', (0 < fuel')%nat ->
        run net' (load_criteo F fuel' md5_check' dir) w' = (w', Err FileNotFoundError).
Proof. exact main_C71_criteo_refuted. Qed.
Print Assumptions C71_criteo_refuted.
Theorem C71_url_labels :
  forall (V : Type) (F : formats V) net dir md5_check fuel w w' m y,
    run net (load_url F fuel md5_check dir) w = (w', Ok (m, y)) ->
    exists ct raw, w_files w' (dir ++ ["url_combined.target.npy"%string]) = Some ct /\ f_npi F ct = Ok raw /\
      (Forall (fun v => v = -1 \/ v = 0 \/ v = 1)%Z raw -> zero_one raw y).
Proof. exact main_C71_url_labels. Qed.
Print Assumptions C71_url_labels.
Theorem C71_kdd12_labels :
  forall (V : Type) (F : formats V) net dir md5_check fuel w w' m y,
    run net (load_kdd12 F fuel md5_check dir) w = (w', Ok (m, y)) ->
    exists f ct raw, In f ["kdd12.target.npy"; "url_combined.target.npy"]%string /\
      w_files w' (dir ++ [f]) = Some ct /\ f_npi F ct = Ok raw /\
      (Forall (fun v => v = -1 \/ v = 0 \/ v = 1)%Z raw -> zero_one raw y).
Proof. exact main_C71_kdd12_labels. Qed.
Print Assumptions C71_kdd12_labels.
Theorem C71_sources :
  forall (V : Type) (F : formats V) net w dir c rows y n fuel,
    npy_roundtrip F -> (1 < fuel)%nat ->
    (bz_holds F "83673b8f4224c81968af2fb6022ee487" c rows y n ->
     net (w_count w) "https://www.csie.ntu.edu.tw/~cjlin/libsvmtools/datasets/binary/url_combined.bz2"%string = Ok c ->
     w_files w (dir ++ ["url_combined.bz2"%string]) = None ->
     exists w' r, run net (load_url F fuel true dir) w = (w', r) /\ returns r rows (relabel y) n) /\
    (bz_holds F "bc5b630fef6989c2f201039fef497e14" c rows y n ->
     net (w_count w) "https://www.csie.ntu.edu.tw/~cjlin/libsvmtools/datasets/binary/kddb.bz2"%string = Ok c ->
     w_files w (dir ++ ["kddb.bz2"%string]) = None ->
     exists w' r, run net (load_kdd10 F fuel true dir) w = (w', r) /\ returns r rows y n) /\
    (bz_holds F "c6fc57735c3cf687dd182d60a7b51cda" c rows y n ->
     net (w_count w) "https://www.csie.ntu.edu.tw/~cjlin/libsvmtools/datasets/binary/kdd12.bz2"%string = Ok c ->
     w_files w (dir ++ ["kdd12.bz2"%string]) = None ->
     exists w' r, run net (load_kdd12 F fuel true dir) w = (w', r) /\ returns r rows (relabel y) n).
Proof. exact main_C71_sources. Qed.
Print Assumptions C71_sources.
Example C71_nonvacuous : npy_roundtrip toy /\ bz_holds toy url_md5 [66; 1]%Z toy_rows_tr [1; -1; 1]%Z 3 /\
  bz_holds toy kdd12_md5 [66; 2]%Z toy_rows_te [-1; 1]%Z 3 /\
  serves_after toy (third [66; 1]%Z) url_url url_md5 (w_count fresh) 2 [66; 1]%Z.
Proof.
  split; [exact toy_roundtrip|]. split; [exact toy_bz_url|]. split; [exact toy_bz_kdd12|].
  apply third_serves. discriminate.
Qed.
(** two bad downloads, then the genuine one: three downloads, labels 1 0 1 *)
Example C71_url_run : match run (third [66; 1]%Z) (load_url toy 5 true DATA) fresh with
  | (w, Ok (m, y)) => Nat.eqb (w_count w) 3 && (c_rows m =? 3)%Z && (nth 1 y 7 =? 0)%Z && (nth 2 y 7 =? 1)%Z
  | _ => false end = true.
Proof. vm_compute. reflexivity. Qed.
(** load_kdd12 with a bad first download: the three rows of the URL dataset, not the two of KDD12 *)
Example C71_kdd12_run :
  match run (fun k u => if String.eqb u url_url then Ok [66; 1]%Z else if Nat.eqb k 0 then Ok [66; 9]%Z else Ok [66; 2]%Z)
            (load_kdd12 toy 5 true DATA) fresh with
  | (_, Ok (m, _)) => (c_rows m =? 3)%Z | _ => false end = true.
Proof. vm_compute. reflexivity. Qed.
Example C71_criteo_nonvacuous : f_md5 toy [31; 3]%Z = criteo_md5 /\ criteo_tidy [([criteo_svm], Some [1%Z])] /\
  svm_holds toy [1]%Z toy_rows_tr [1; -1; 1]%Z 3 /\ f_untar toy [31]%Z = Err ValueError.
Proof. split; [reflexivity|]. split; [exact toy_criteo_tidy|]. split; [exact toy_svm1|reflexivity]. Qed.

(** C72.  Full property (false): 'full' is the train rows followed by the test rows.  Each part gets its width
    from its own largest column, and vstack raises ValueError when they differ.  Proved: train, test, and full
    for equal widths; any other subset name raises ValueError. *)
Theorem C72_subset_partial :
  forall (V : Type) (F : formats V) net w tf name subset dd ds rows y n,
    stored F w (dd ++ [name]) ds -> subset_of ds subset rows y n ->
    exists r, run net (load_dataset F tf name subset dd) w = (w, r) /\ returns r rows y n.
Proof. exact main_C72_subset_partial. Qed.
Print Assumptions C72_subset_partial.
Theorem C72_other_partial :
  forall (V : Type) (F : formats V) net w tf name subset dd ds,
    stored F w (dd ++ [name]) ds ->
    subset <> "train"%string -> subset <> "test"%string -> subset <> "full"%string ->
    run net (load_dataset F tf name subset dd) w = (w, Err ValueError).
Proof. exact main_C72_other_partial. Qed.
Print Assumptions C72_other_partial.
Theorem C72_full_refuted :
  forall (V : Type) (F : formats V) net w tf name dd ds,
    stored F w (dd ++ [name]) ds -> ds_ntrain ds <> ds_ntest ds ->
    run net (load_dataset F tf name "full" dd) w = (w, Err ValueError).
Proof. exact main_C72_full_refuted. Qed.
Print Assumptions C72_full_refuted.
Example C72_nonvacuous : exists w, stored toy w (DATA ++ ["toy"%string]) (toy_ds toy_rows_te 3) /\
  subset_of (toy_ds toy_rows_te 3) "test" toy_rows_te [0; 1]%Z 3.
Proof. destruct toy_stored as (w & H). exists w. split; [exact H|]. right. left. repeat split. Qed.
Example C72_full_refuted_nonvacuous : exists w, stored toy w (DATA ++ ["toy"%string]) (toy_ds toy_rows_narrow 2) /\
  ds_ntrain (toy_ds toy_rows_narrow 2) <> ds_ntest (toy_ds toy_rows_narrow 2).
Proof. destruct toy_stored_narrow as (w & H). exists w. split; [exact H|]. discriminate. Qed.
