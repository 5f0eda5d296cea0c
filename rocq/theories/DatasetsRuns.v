(** Concrete formats, disks and servers meeting the hypotheses of C70-C72, and
    concrete runs. *)
From Coq Require Import String.
From Coq Require Import List ZArith Bool Arith Lia.
From Verif Require Import Vec ModelDatasets SpecDatasets DatasetsFacts DatasetsMain DatasetsMain2.
Import ListNotations.
Open Scope list_scope.

(** An array file: a magic byte, the length, the entries.  A truncated file does
    not decode. *)
Definition toy_save (l : list Z) : bytes := 147%Z :: Z.of_nat (List.length l) :: l.
Definition toy_load (c : bytes) : result (list Z) :=
  match c with
  | (147 :: n :: l)%Z => if (n =? Z.of_nat (List.length l))%Z then Ok l else Err ValueError
  | _ => Err ValueError
  end.

Definition toy_rows_tr : list (row Z) := [[(0, 5); (2, 7)]; []; [(1, 3)]]%Z.
Definition toy_rows_te : list (row Z) := [[(2, 4)]; [(0, 9)]]%Z.
Definition toy_rows_narrow : list (row Z) := [[(1, 4)]; [(0, 9)]]%Z.

Definition toy_members (te : list (row Z)) : list (path * option bytes) :=
  [(["toy"], None);
   (["toy"; "X_train.data.npy"], Some (toy_save (map snd (concat toy_rows_tr))));
   (["toy"; "X_train.indices.npy"], Some (toy_save (map fst (concat toy_rows_tr))));
   (["toy"; "X_train.indptr.npy"], Some (toy_save (starts 0 toy_rows_tr)));
   (["toy"; "y_train.npy"], Some (toy_save [1; 0; 1]%Z));
   (["toy"; "X_test.data.npy"], Some (toy_save (map snd (concat te))));
   (["toy"; "X_test.indices.npy"], Some (toy_save (map fst (concat te))));
   (["toy"; "X_test.indptr.npy"], Some (toy_save (starts 0 te)));
   (["toy"; "y_test.npy"], Some (toy_save [0; 1]%Z))]%string.

Definition toy : formats Z := {|
  f_untar := fun c => match c with
                      | [31; 1]%Z => Ok (toy_members toy_rows_te)
                      | [31; 2]%Z => Ok (toy_members toy_rows_narrow)
                      | [31; 3]%Z => Ok [([criteo_svm], Some [1%Z])]
                      | [31; 4]%Z => Ok []
                      | _ => Err ValueError
                      end;
  f_npv := toy_load; f_npi := toy_load; f_savev := toy_save; f_savei := toy_save;
  f_bunzip := fun c => match c with (66 :: t)%Z => Ok t | _ => Err ValueError end;
  f_svm := fun t => match t with
                    | [1]%Z => Ok (map snd (concat toy_rows_tr), map fst (concat toy_rows_tr),
                                   starts 0 toy_rows_tr, [1; -1; 1]%Z)
                    | [2]%Z => Ok (map snd (concat toy_rows_te), map fst (concat toy_rows_te),
                                   starts 0 toy_rows_te, [-1; 1]%Z)
                    | _ => Err ValueError
                    end;
  f_md5 := fun c => match c with
                    | [66; 1]%Z => url_md5
                    | [66; 2]%Z => kdd12_md5
                    | [66; 1; 0]%Z => kdd10_md5
                    | [31; 3]%Z => criteo_md5
                    | _ => "0"%string
                    end |}.

Lemma toy_roundtrip : npy_roundtrip toy.
Proof.
  assert (G : forall l, toy_load (toy_save l) = Ok l).
  { intros l. unfold toy_load, toy_save. rewrite Z.eqb_refl. reflexivity. }
  split; exact G.
Qed.

Definition toy_ds te n : dataset Z :=
  {| ds_train := toy_rows_tr; ds_ytrain := [1; 0; 1]%Z; ds_ntrain := 3%Z;
     ds_test := te; ds_ytest := [0; 1]%Z; ds_ntest := n |}.

Ltac widths := split; [intros c v H; cbn in H; repeat (destruct H as [H|H]; [injection H as <- <-; lia|]); contradiction|].

Lemma toy_width_tr : has_width toy_rows_tr 3.
Proof. widths. exists 2%Z, 7%Z. cbn. auto. Qed.
Lemma toy_width_te : has_width toy_rows_te 3.
Proof. widths. exists 2%Z, 4%Z. cbn. auto. Qed.
Lemma toy_width_narrow : has_width toy_rows_narrow 2.
Proof. widths. exists 1%Z, 4%Z. cbn. auto. Qed.

Lemma toy_tidy te : tidy (toy_members te) "toy".
Proof.
  split.
  - cbn [map fst toy_members]. repeat constructor; cbn [In]; intuition discriminate.
  - intros p c H. unfold toy_members in H. cbn [In] in H.
    repeat (destruct H as [H|H]; [try discriminate; injection H as <- _; eexists; reflexivity|]).
    contradiction.
Qed.

Lemma toy_part_tr te : part_in toy (in_archive (toy_members te) "toy") "train" toy_rows_tr [1; 0; 1]%Z.
Proof.
  exists (map snd (concat toy_rows_tr)), (map fst (concat toy_rows_tr)), (starts 0 toy_rows_tr),
    (toy_save (map snd (concat toy_rows_tr))), (toy_save (map fst (concat toy_rows_tr))),
    (toy_save (starts 0 toy_rows_tr)), (toy_save [1; 0; 1]%Z).
  unfold in_archive. repeat split; cbn; tauto.
Qed.

Lemma toy_part_te te : part_in toy (in_archive (toy_members te) "toy") "test" te [0; 1]%Z.
Proof.
  exists (map snd (concat te)), (map fst (concat te)), (starts 0 te),
    (toy_save (map snd (concat te))), (toy_save (map fst (concat te))),
    (toy_save (starts 0 te)), (toy_save [0; 1]%Z).
  unfold in_archive.
  repeat split; try (cbn; tauto); apply (proj1 toy_roundtrip).
Qed.

Lemma toy_archive : good_archive toy [31; 1]%Z "toy" (toy_ds toy_rows_te 3).
Proof.
  exists (toy_members toy_rows_te). repeat split; try apply toy_tidy; try apply toy_part_tr;
    try apply toy_part_te; try apply toy_width_tr; apply toy_width_te.
Qed.
Lemma toy_archive_narrow : good_archive toy [31; 2]%Z "toy" (toy_ds toy_rows_narrow 2).
Proof.
  exists (toy_members toy_rows_narrow). repeat split; try apply toy_tidy; try apply toy_part_tr;
    try apply toy_part_te; try apply toy_width_tr; apply toy_width_narrow.
Qed.

(** An empty disk with an existing data directory. *)
Definition fresh : world :=
  {| w_files := fun _ => None; w_dirs := fun q => path_eqb q ["data"%string]; w_count := 0 |}.
Definition serve (b : bytes) : nat -> string -> result bytes := fun _ _ => Ok b.
Definition DATA : path := ["data"%string].

Lemma fresh_missing : train_missing fresh (DATA ++ ["toy"%string]).
Proof. exists "y_train.npy"%string. split; [cbn; tauto|reflexivity]. Qed.
Lemma fresh_nodir : w_dirs fresh (DATA ++ ["toy"%string]) = false.
Proof. reflexivity. Qed.

(** A disk on which the toy dataset is stored. *)
Lemma toy_stored : exists w, stored toy w (DATA ++ ["toy"%string]) (toy_ds toy_rows_te 3).
Proof.
  destruct (fetch_run toy (serve [31; 1]%Z) fresh false "toy" "full" DATA [31; 1]%Z _
              ltac:(rewrite fresh_nodir; discriminate) eq_refl toy_archive) as (w & _ & H).
  exists w. exact H.
Qed.
Lemma toy_stored_narrow : exists w, stored toy w (DATA ++ ["toy"%string]) (toy_ds toy_rows_narrow 2).
Proof.
  destruct (fetch_run toy (serve [31; 2]%Z) fresh false "toy" "full" DATA [31; 2]%Z _
              ltac:(rewrite fresh_nodir; discriminate) eq_refl toy_archive_narrow) as (w & _ & H).
  exists w. exact H.
Qed.

Lemma toy_svm1 : svm_holds toy [1]%Z toy_rows_tr [1; -1; 1]%Z 3.
Proof.
  eexists _, _, _. split; [reflexivity|]. split; [repeat split|exact toy_width_tr].
Qed.
Lemma toy_svm2 : svm_holds toy [2]%Z toy_rows_te [-1; 1]%Z 3.
Proof.
  eexists _, _, _. split; [reflexivity|]. split; [repeat split|exact toy_width_te].
Qed.
Lemma toy_bz_url : bz_holds toy url_md5 [66; 1]%Z toy_rows_tr [1; -1; 1]%Z 3.
Proof. split; [reflexivity|]. exists [1%Z]. split; [reflexivity|exact toy_svm1]. Qed.
Lemma toy_bz_kdd12 : bz_holds toy kdd12_md5 [66; 2]%Z toy_rows_te [-1; 1]%Z 3.
Proof. split; [reflexivity|]. exists [2%Z]. split; [reflexivity|exact toy_svm2]. Qed.

(** Two bad downloads, then the genuine file. *)
Definition third (c : bytes) : nat -> string -> result bytes :=
  fun k _ => if Nat.ltb k 2 then Ok [66; 9]%Z else Ok c.
Lemma third_serves u md5 c : "0"%string <> md5 -> serves_after toy (third c) u md5 0 2 c.
Proof.
  intros H. split; [reflexivity|]. intros i Hi. exists [66; 9]%Z. split; [|exact H].
  unfold third. destruct i as [|[|i]]; [reflexivity|reflexivity|lia].
Qed.
Lemma toy_criteo_tidy : criteo_tidy [([criteo_svm], Some [1%Z])].
Proof.
  split; [repeat constructor; auto|]. intros p c [H|[]]. injection H as <- <-.
  exists criteo_svm. split; [reflexivity|discriminate].
Qed.

(** What a run leaves in the file [f] of a dataset directory, and what it raised. *)
Definition left_in (w : world) (f : string) : option bytes := w_files w (["data"; "toy"; f]%string).
Definition raised {A} (r : result A) : option exc := match r with Ok _ => None | Err e => Some e end.

(** With TensorFlow's makedirs: killed while the last training file is being
    written, all four files exist and the last is empty; from then on every call
    fails to decode it. *)
Lemma main_C70_truncated_refuted :
  exists k, let w1 := crash (serve [31; 1]%Z) k (load_dataset toy true "toy" "full" DATA) fresh in
    ~ train_missing w1 (DATA ++ ["toy"%string]) /\ left_in w1 "y_train.npy" = Some [] /\
    forall net subset, raised (snd (run net (load_dataset toy true "toy" subset DATA) w1)) = Some ValueError.
Proof.
  exists 13%nat. cbv zeta.
  set (w1 := crash (serve [31; 1]%Z) 13 (load_dataset toy true "toy" "full" DATA) fresh).
  assert (E1 : w_files w1 ["data"; "toy"; "X_train.data.npy"]%string = Some (toy_save (map snd (concat toy_rows_tr)))) by (vm_compute; reflexivity).
  assert (E2 : w_files w1 ["data"; "toy"; "X_train.indices.npy"]%string = Some (toy_save (map fst (concat toy_rows_tr)))) by (vm_compute; reflexivity).
  assert (E3 : w_files w1 ["data"; "toy"; "X_train.indptr.npy"]%string = Some (toy_save (starts 0 toy_rows_tr))) by (vm_compute; reflexivity).
  assert (E4 : w_files w1 ["data"; "toy"; "y_train.npy"]%string = Some []) by (vm_compute; reflexivity).
  clearbody w1.
  assert (P : forall f, In f ["X_train.data.npy"; "X_train.indices.npy"; "X_train.indptr.npy"; "y_train.npy"]%string ->
     w_files w1 ((DATA ++ ["toy"%string]) ++ [f]) <> None).
  { intros f Hf. cbn [In] in Hf. cbn [DATA app].
    destruct Hf as [<-|[<-|[<-|[<-|[]]]]]; congruence. }
  split; [|split; [exact E4|]].
  - intros (f & Hf & Hn). exact (P f Hf Hn).
  - intros net subset. rewrite dataset_present; [|exact P].
    unfold load_rest. rewrite run_pbind. unfold load_train, load_part, load_v, load_i.
    rewrite run_pbind. cbn [run DATA app]. rewrite E1, run_plift, (proj1 toy_roundtrip _ : f_npv toy _ = _).
    rewrite run_pbind. cbn [run DATA app]. rewrite E2, run_plift, (proj2 toy_roundtrip _ : f_npi toy _ = _).
    rewrite run_pbind. cbn [run DATA app]. rewrite E3, run_plift, (proj2 toy_roundtrip _ : f_npi toy _ = _).
    rewrite run_pbind. cbn [run DATA app]. rewrite E4, run_plift. reflexivity.
Qed.
