(** C70, C71: each named loader fetches its own archive, from the address and with
    the checksum written in copt/datasets.py. *)
From Coq Require Import String.
From Coq Require Import List ZArith Bool Arith Lia.
From Verif Require Import Vec ModelDatasets SpecDatasets DatasetsFacts DatasetsMain DatasetsMain2 DatasetsRuns.
Import ListNotations.
Open Scope list_scope.

(** An archive that holds a training part, and possibly nothing else. *)
Definition train_archive {V} (F : formats V) (tgz : bytes) (name : string)
  (rows : list (row V)) (y : list Z) (n : Z) : Prop :=
  exists ms, f_untar F tgz = Ok ms /\ tidy ms name /\
    part_in F (in_archive ms name) "train" rows y /\ has_width rows n.

Lemma train_only {V : Type} (F : formats V) net w tf name dd tgz rows y n :
  train_missing w (dd ++ [name]) ->
  (w_dirs w (dd ++ [name]) = true -> tf = true) ->
  net (w_count w) (dataset_url name) = Ok tgz -> train_archive F tgz name rows y n ->
  exists w' r, run net (load_dataset F tf name "train" dd) w = (w', r) /\ returns r rows y n.
Proof.
  intros Hm Hd Hnet (ms & Em & (ND & Tp) & Ptr & Wtr).
  rewrite (proj1 (dataset_missing F net w tf name "train" dd Hm)).
  unfold fetch_branch. cbn [run].
  assert (E : w_dirs w (dd ++ [name]) && negb tf = false).
  { destruct (w_dirs w (dd ++ [name])); [rewrite (Hd eq_refl)|]; reflexivity. }
  rewrite E. cbn [w_count mkdirs]. rewrite Hnet, run_pbind, run_plift, Em.
  destruct (extract_run net 5000 dd (load_rest F "train" (dd ++ [name])) ltac:(lia) ms
              (tick (mkdirs (dd ++ [name]) w)) ND) as (w' & R & P & _).
  { intros p c Hp. destruct (Tp p c Hp) as (f & ->).
    assert (Ep : dd ++ [name; f] = (dd ++ [name]) ++ [f]) by now rewrite <- app_assoc.
    rewrite Ep, parent_snoc. cbn [tick mkdirs w_dirs]. rewrite prefix_refl. reflexivity. }
  destruct (train_run F net w' (dd ++ [name]) rows y n (part_moves F ms name w' dd _ _ _ P Ptr) Wtr)
    as (m & Rm & Mm).
  exists w', (Ok (m, y)). split; [|exists m; auto].
  rewrite R. unfold load_rest. rewrite run_pbind, Rm. reflexivity.
Qed.

(** copt/datasets.py:61-63, 158, 188, 312: the three loaders with a subset argument. *)
Lemma main_C70_named :
  forall (V : Type) (F : formats V) net w tf subset dd tgz ds rows y n name
    (load : bool -> string -> path -> prog (csr V * list Z)) url,
    In (name, load, url)
      [("madelon"%string, load_madelon F, "https://storage.googleapis.com/copt-doc/datasets/madelon.tar.gz"%string);
       ("rcv1"%string, load_rcv1 F, "https://storage.googleapis.com/copt-doc/datasets/rcv1.tar.gz"%string);
       ("gisette"%string, load_gisette F, "https://storage.googleapis.com/copt-doc/datasets/gisette.tar.gz"%string)] ->
    train_missing w (dd ++ [name]) -> (w_dirs w (dd ++ [name]) = true -> tf = true) ->
    net (w_count w) url = Ok tgz -> good_archive F tgz name ds -> subset_of ds subset rows y n ->
    exists w' r, run net (load tf subset dd) w = (w', r) /\ returns r rows y n.
Proof.
  intros V F net w tf subset dd tgz ds rows y n name load url Hi Hm Hd Hn Hg Hs.
  cbn [In] in Hi.
  destruct Hi as [E|[E|[E|[]]]]; injection E as <- <- <-;
  match goal with |- context [run _ _ _ = _] =>
    destruct (main_C70_first_call V F net w tf _ subset dd tgz ds rows y n Hm Hd Hn Hg Hs) as (w' & r & R & Hr & _);
    exists w', r; split; [exact R|exact Hr] end.
Qed.

(** copt/datasets.py:264, 282: the two loaders without one; their archives need no test part. *)
Lemma main_C70_named_train :
  forall (V : Type) (F : formats V) net w tf dd tgz rows y n name
    (load : bool -> path -> prog (csr V * list Z)) url,
    In (name, load, url)
      [("covtype"%string, load_covtype F, "https://storage.googleapis.com/copt-doc/datasets/covtype.tar.gz"%string);
       ("news20"%string, load_news20 F, "https://storage.googleapis.com/copt-doc/datasets/news20.tar.gz"%string)] ->
    train_missing w (dd ++ [name]) -> (w_dirs w (dd ++ [name]) = true -> tf = true) ->
    net (w_count w) url = Ok tgz -> train_archive F tgz name rows y n ->
    exists w' r, run net (load tf dd) w = (w', r) /\ returns r rows y n.
Proof.
  intros V F net w tf dd tgz rows y n name load url Hi Hm Hd Hn Hg.
  cbn [In] in Hi.
  destruct Hi as [E|[E|[]]]; injection E as <- <- <-;
    exact (train_only F net w tf _ dd tgz rows y n Hm Hd Hn Hg).
Qed.

(** copt/datasets.py:221-226, 340-345, 383-388: the addresses and checksums of the
    three files fetched with urlretrieve. *)
Lemma main_C71_sources :
  forall (V : Type) (F : formats V) net w dir c rows y n fuel,
    npy_roundtrip F -> (1 < fuel)%nat ->
    (bz_holds F "83673b8f4224c81968af2fb6022ee487" c rows y n ->
     net (w_count w) "https://www.csie.ntu.edu.tw/~cjlin/libsvmtools/datasets/binary/url_combined.bz2"%string = Ok c ->
     w_files w (dir ++ ["url_combined.bz2"%string]) = None ->
     exists w' r, run net (load_url F fuel true dir) w = (w', r) /\ returns r rows (relabel y) n) /\
    (bz_holds F "bc5b630fef6989c2f201039fef497e14" c rows y n ->
     net (w_count w) "https://www.csie.ntu.edu.tw/~cjlin/libsvmtools/datasets/binary/kddb.bz2"%string = Ok c ->
     w_files w (dir ++ ["kddb.bz2"%string]) = None ->
     exists w' r, run net (load_kdd10 F fuel true dir) w = (w', r) /\ returns r rows y n) /\
    (bz_holds F "c6fc57735c3cf687dd182d60a7b51cda" c rows y n ->
     net (w_count w) "https://www.csie.ntu.edu.tw/~cjlin/libsvmtools/datasets/binary/kdd12.bz2"%string = Ok c ->
     w_files w (dir ++ ["kdd12.bz2"%string]) = None ->
     exists w' r, run net (load_kdd12 F fuel true dir) w = (w', r) /\ returns r rows (relabel y) n).
Proof.
  intros V F net w dir c rows y n fuel RT Hf. split; [|split]; intros Hb Hc Hw.
  - destruct (main_C71_url V F net dir c rows y n RT Hb 0 fuel w ltac:(lia) Hw) as (w' & r & R & Hr & _).
    + split; [rewrite Nat.add_0_r; exact Hc|intros i Hi; lia].
    + exists w', r. auto.
  - destruct (main_C71_kdd10 V F net dir c rows y n Hb 0 fuel w Hf) as (w' & r & R & Hr).
    + split; [rewrite Nat.add_0_r; exact Hc|intros i Hi; lia].
    + intros b Hb'. congruence.
    + exists w', r. auto.
  - destruct (main_C71_kdd12_partial V F net dir c rows y n RT Hb fuel w true ltac:(lia) Hw Hc) as (w' & r & R & Hr & _).
    exists w', r. auto.
Qed.

(** An archive of training rows only, for the non-vacuity of C70_named_train. *)
Definition one_members (name : string) : list (path * option bytes) :=
  [([name; "X_train.data.npy"%string], Some (toy_save (map snd (concat toy_rows_tr))));
   ([name; "X_train.indices.npy"%string], Some (toy_save (map fst (concat toy_rows_tr))));
   ([name; "X_train.indptr.npy"%string], Some (toy_save (starts 0 toy_rows_tr)));
   ([name; "y_train.npy"%string], Some (toy_save [1; 0; 1]%Z))].

Definition one (name : string) : formats Z := {|
  f_untar := fun _ => Ok (one_members name);
  f_npv := toy_load; f_npi := toy_load; f_savev := toy_save; f_savei := toy_save;
  f_bunzip := fun _ => Err ValueError; f_svm := fun _ => Err ValueError; f_md5 := fun _ => "0"%string |}.

Lemma one_archive name : train_archive (one name) [31]%Z name toy_rows_tr [1; 0; 1]%Z 3.
Proof.
  exists (one_members name). split; [reflexivity|]. split; [split|split].
  - cbn [map fst one_members]. repeat constructor; cbn [In]; intuition discriminate.
  - intros p c H. unfold one_members in H. cbn [In] in H.
    repeat (destruct H as [H|H]; [try discriminate; injection H as <- _; eexists; reflexivity|]).
    contradiction.
  - exists (map snd (concat toy_rows_tr)), (map fst (concat toy_rows_tr)), (starts 0 toy_rows_tr),
      (toy_save (map snd (concat toy_rows_tr))), (toy_save (map fst (concat toy_rows_tr))),
      (toy_save (starts 0 toy_rows_tr)), (toy_save [1; 0; 1]%Z).
    unfold in_archive. repeat split; cbn; tauto.
  - exact toy_width_tr.
Qed.
