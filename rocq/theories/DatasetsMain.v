(** C70, C72: the archive-based loaders [_load_dataset]. *)
From Coq Require Import String.
From Coq Require Import List ZArith Bool Arith Lia.
From Verif Require Import Vec ModelDatasets SpecDatasets DatasetsFacts.
Import ListNotations.
Open Scope list_scope.

Section MAIN.
Context {V : Type} (F : formats V).

Lemma load_part_run net w dir xd xi xp y rows labels n d ix ip cd ci cp ct :
  encodes rows d ix ip -> has_width rows n ->
  w_files w (dir ++ [xd]) = Some cd -> f_npv F cd = Ok d ->
  w_files w (dir ++ [xi]) = Some ci -> f_npi F ci = Ok ix ->
  w_files w (dir ++ [xp]) = Some cp -> f_npi F cp = Ok ip ->
  w_files w (dir ++ [y]) = Some ct -> f_npi F ct = Ok labels ->
  exists m, run net (load_part F dir xd xi xp y) w = (w, Ok (m, labels)) /\ is_matrix m rows n.
Proof.
  intros He Hw E1 D1 E2 D2 E3 D3 E4 D4.
  destruct (csr_matrix_ok rows d ix ip n He Hw) as (m & Em & Hm). exists m. split; [|exact Hm].
  unfold load_part, load_v, load_i.
  rewrite run_pbind. cbn [run]. rewrite E1, run_plift, D1.
  rewrite run_pbind. cbn [run]. rewrite E2, run_plift, D2.
  rewrite run_pbind. cbn [run]. rewrite E3, run_plift, D3.
  rewrite run_pbind. cbn [run]. rewrite E4, run_plift, D4.
  rewrite run_pbind, run_plift, Em. reflexivity.
Qed.

Lemma train_run net w dir rows y n :
  part_in F (on_disk w dir) "train" rows y -> has_width rows n ->
  exists m, run net (load_train F dir) w = (w, Ok (m, y)) /\ is_matrix m rows n.
Proof.
  intros (d & ix & ip & cd & ci & cp & ct & He & L1 & D1 & L2 & D2 & L3 & D3 & L4 & D4) Hw.
  unfold on_disk in *.
  exact (load_part_run net w dir _ _ _ _ rows y n d ix ip cd ci cp ct He Hw L1 D1 L2 D2 L3 D3 L4 D4).
Qed.

Lemma test_run net w dir rows y n :
  part_in F (on_disk w dir) "test" rows y -> has_width rows n ->
  exists m, run net (load_test F dir) w = (w, Ok (m, y)) /\ is_matrix m rows n.
Proof.
  intros (d & ix & ip & cd & ci & cp & ct & He & L1 & D1 & L2 & D2 & L3 & D3 & L4 & D4) Hw.
  unfold on_disk in *.
  exact (load_part_run net w dir _ _ _ _ rows y n d ix ip cd ci cp ct He Hw L1 D1 L2 D2 L3 D3 L4 D4).
Qed.

Lemma rest_run net w dir ds subset rows y n :
  stored F w dir ds -> subset_of ds subset rows y n ->
  exists r, run net (load_rest F subset dir) w = (w, r) /\ returns r rows y n.
Proof.
  intros (Ptr & Pte & Wtr & Wte) Hs.
  destruct (train_run net w dir _ _ _ Ptr Wtr) as (m1 & R1 & M1).
  destruct (test_run net w dir _ _ _ Pte Wte) as (m2 & R2 & M2).
  unfold load_rest. rewrite run_pbind, R1.
  destruct Hs as [(-> & -> & -> & ->)|[(-> & -> & -> & ->)|(-> & -> & -> & N1 & N2)]]; cbn [String.eqb Ascii.eqb Bool.eqb].
  - eexists. split; [reflexivity|]. exists m1. auto.
  - rewrite run_pbind, R2. eexists. split; [reflexivity|]. exists m2. auto.
  - rewrite run_pbind, R2. cbn [String.eqb Ascii.eqb Bool.eqb fst snd].
    destruct (vstack_ok m1 m2 (ds_train ds) (ds_test ds) n) as (m & E & M); [now rewrite N1|now rewrite N2|].
    rewrite run_pbind, run_plift, E. eexists. split; [reflexivity|]. exists m. auto.
Qed.

Lemma rest_full_bad net w dir ds :
  stored F w dir ds -> ds_ntrain ds <> ds_ntest ds ->
  run net (load_rest F "full" dir) w = (w, Err ValueError).
Proof.
  intros (Ptr & Pte & Wtr & Wte) Hn.
  destruct (train_run net w dir _ _ _ Ptr Wtr) as (m1 & R1 & M1).
  destruct (test_run net w dir _ _ _ Pte Wte) as (m2 & R2 & M2).
  unfold load_rest. rewrite run_pbind, R1. cbn [String.eqb Ascii.eqb Bool.eqb].
  rewrite run_pbind, R2. cbn [String.eqb Ascii.eqb Bool.eqb fst snd].
  rewrite run_pbind, run_plift, (vstack_bad m1 m2 _ _ _ _ M1 M2 Hn). reflexivity.
Qed.

Lemma rest_other net w dir ds subset :
  stored F w dir ds -> subset <> "train"%string -> subset <> "test"%string -> subset <> "full"%string ->
  run net (load_rest F subset dir) w = (w, Err ValueError).
Proof.
  intros (Ptr & Pte & Wtr & Wte) H1 H2 H3.
  destruct (train_run net w dir _ _ _ Ptr Wtr) as (m1 & R1 & M1).
  destruct (test_run net w dir _ _ _ Pte Wte) as (m2 & R2 & M2).
  unfold load_rest. rewrite run_pbind, R1.
  rewrite (proj2 (String.eqb_neq _ _) H1), run_pbind, R2.
  rewrite (proj2 (String.eqb_neq _ _) H2), (proj2 (String.eqb_neq _ _) H3). reflexivity.
Qed.

(** All four training files are there: no directory is made, nothing is downloaded. *)
Lemma dataset_present net w tf name subset dd :
  (forall f, In f ["X_train.data.npy"; "X_train.indices.npy"; "X_train.indptr.npy"; "y_train.npy"]%string ->
     w_files w ((dd ++ [name]) ++ [f]) <> None) ->
  run net (load_dataset F tf name subset dd) w = run net (load_rest F subset (dd ++ [name])) w.
Proof.
  intros H. unfold load_dataset. cbn [run].
  assert (H1 := H "X_train.data.npy"%string ltac:(cbn; tauto)).
  assert (H2 := H "X_train.indices.npy"%string ltac:(cbn; tauto)).
  assert (H3 := H "X_train.indptr.npy"%string ltac:(cbn; tauto)).
  assert (H4 := H "y_train.npy"%string ltac:(cbn; tauto)).
  destruct (w_files w ((dd ++ [name]) ++ ["X_train.data.npy"%string])); [|congruence].
  destruct (w_files w ((dd ++ [name]) ++ ["X_train.indices.npy"%string])); [|congruence].
  destruct (w_files w ((dd ++ [name]) ++ ["X_train.indptr.npy"%string])); [|congruence].
  destruct (w_files w ((dd ++ [name]) ++ ["y_train.npy"%string])); [|congruence].
  reflexivity.
Qed.

Lemma stored_present w dd name ds : stored F w (dd ++ [name]) ds ->
  forall f, In f ["X_train.data.npy"; "X_train.indices.npy"; "X_train.indptr.npy"; "y_train.npy"]%string ->
     w_files w ((dd ++ [name]) ++ [f]) <> None.
Proof.
  intros ((d & ix & ip & cd & ci & cp & ct & He & L1 & D1 & L2 & D2 & L3 & D3 & L4 & D4) & _) f Hf.
  unfold on_disk in *. cbn in Hf.
  assert (G : forall q c, w_files w q = Some c -> w_files w q <> None) by congruence.
  destruct Hf as [<-|[<-|[<-|[<-|[]]]]].
  - exact (G _ _ L1).
  - exact (G _ _ L2).
  - exact (G _ _ L3).
  - exact (G _ _ L4).
Qed.

(** A training file is missing. *)
Definition fetch_branch tf name subset dd : prog (csr V * list Z) :=
  Makedirs tf (dd ++ [name])
    (Fetch (dataset_url name) (fun tgz =>
       pbind (plift (f_untar F tgz)) (fun ms =>
       extract 5000 dd ms (load_rest F subset (dd ++ [name]))))).

Lemma dataset_missing net w tf name subset dd :
  train_missing w (dd ++ [name]) ->
  run net (load_dataset F tf name subset dd) w = run net (fetch_branch tf name subset dd) w /\
  forall n, crash net (4 + n) (load_dataset F tf name subset dd) w
            = crash net n (fetch_branch tf name subset dd) w.
Proof.
  intros (f & Hf & Hn).
  assert (G : forall b1 b2 b3 b4 : bool,
     (match w_files w ((dd ++ [name]) ++ ["X_train.data.npy"%string]) with Some _ => true | None => false end) = b1 ->
     (match w_files w ((dd ++ [name]) ++ ["X_train.indices.npy"%string]) with Some _ => true | None => false end) = b2 ->
     (match w_files w ((dd ++ [name]) ++ ["X_train.indptr.npy"%string]) with Some _ => true | None => false end) = b3 ->
     (match w_files w ((dd ++ [name]) ++ ["y_train.npy"%string]) with Some _ => true | None => false end) = b4 ->
     b1 && b2 && b3 && b4 = false).
  { intros b1 b2 b3 b4 E1 E2 E3 E4. cbn [In] in Hf.
    destruct Hf as [<-|[<-|[<-|[<-|[]]]]]; rewrite Hn in *; subst; cbn; auto;
      rewrite ?andb_false_r; reflexivity. }
  specialize (G _ _ _ _ eq_refl eq_refl eq_refl eq_refl).
  unfold load_dataset. split.
  - cbn [run]. rewrite G. reflexivity.
  - intros n. cbn [Nat.add crash step]. rewrite G. reflexivity.
Qed.

(** Archive contents end up on disk. *)
Lemma part_moves ms name w' dd part rows y :
  (forall p c, In (p, Some c) ms -> w_files w' (dd ++ p) = Some c) ->
  part_in F (in_archive ms name) part rows y ->
  part_in F (on_disk w' (dd ++ [name])) part rows y.
Proof.
  intros H (d & ix & ip & cd & ci & cp & ct & He & L1 & D1 & L2 & D2 & L3 & D3 & L4 & D4).
  exists d, ix, ip, cd, ci, cp, ct.
  unfold on_disk, in_archive in *.
  assert (G : forall f c, In ([name; f], Some c) ms -> w_files w' ((dd ++ [name]) ++ [f]) = Some c).
  { intros f c Hi. rewrite <- app_assoc. exact (H [name; f] c Hi). }
  repeat (split; auto).
Qed.

Lemma fetch_run net w tf name subset dd tgz ds :
  (w_dirs w (dd ++ [name]) = true -> tf = true) ->
  net (w_count w) (dataset_url name) = Ok tgz ->
  good_archive F tgz name ds ->
  exists w', run net (fetch_branch tf name subset dd) w = run net (load_rest F subset (dd ++ [name])) w' /\
             stored F w' (dd ++ [name]) ds.
Proof.
  intros Hd Hnet (ms & Em & (ND & Tp) & Ptr & Pte & Wtr & Wte).
  unfold fetch_branch. cbn [run].
  assert (E : w_dirs w (dd ++ [name]) && negb tf = false).
  { destruct (w_dirs w (dd ++ [name])); [rewrite (Hd eq_refl)|]; reflexivity. }
  rewrite E. cbn [w_count mkdirs]. rewrite Hnet, run_pbind, run_plift, Em.
  destruct (extract_run net 5000 dd (load_rest F subset (dd ++ [name])) ltac:(lia) ms
              (tick (mkdirs (dd ++ [name]) w)) ND) as (w' & R & P & _).
  { intros p c Hp. destruct (Tp p c Hp) as (f & ->).
    assert (Ep : dd ++ [name; f] = (dd ++ [name]) ++ [f]) by now rewrite <- app_assoc.
    rewrite Ep, parent_snoc. cbn [tick mkdirs w_dirs]. rewrite prefix_refl. reflexivity. }
  exists w'. split; [exact R|].
  split; [exact (part_moves ms name w' dd _ _ _ P Ptr)|].
  split; [exact (part_moves ms name w' dd _ _ _ P Pte)|auto].
Qed.

End MAIN.

(** * C72 *)
Lemma main_C72_subset_partial :
  forall (V : Type) (F : formats V) net w tf name subset dd ds rows y n,
    stored F w (dd ++ [name]) ds -> subset_of ds subset rows y n ->
    exists r, run net (load_dataset F tf name subset dd) w = (w, r) /\ returns r rows y n.
Proof.
  intros V F net w tf name subset dd ds rows y n St Hs.
  rewrite dataset_present; [|exact (stored_present F w dd name ds St)].
  exact (rest_run F net w (dd ++ [name]) ds subset rows y n St Hs).
Qed.

Lemma main_C72_other_partial :
  forall (V : Type) (F : formats V) net w tf name subset dd ds,
    stored F w (dd ++ [name]) ds ->
    subset <> "train"%string -> subset <> "test"%string -> subset <> "full"%string ->
    run net (load_dataset F tf name subset dd) w = (w, Err ValueError).
Proof.
  intros V F net w tf name subset dd ds St H1 H2 H3.
  rewrite dataset_present; [|exact (stored_present F w dd name ds St)].
  exact (rest_other F net w (dd ++ [name]) ds subset St H1 H2 H3).
Qed.

(** The two parts are given a width each, from their own largest column; when
    these differ the concatenation raises. *)
Lemma main_C72_full_refuted :
  forall (V : Type) (F : formats V) net w tf name dd ds,
    stored F w (dd ++ [name]) ds -> ds_ntrain ds <> ds_ntest ds ->
    run net (load_dataset F tf name "full" dd) w = (w, Err ValueError).
Proof.
  intros V F net w tf name dd ds St Hn.
  rewrite dataset_present; [|exact (stored_present F w dd name ds St)].
  exact (rest_full_bad F net w (dd ++ [name]) ds St Hn).
Qed.

(** * C70 *)
(** A first call on a machine without the dataset returns it, and leaves it so
    that every later call returns it again without a download. *)
Lemma main_C70_first_call :
  forall (V : Type) (F : formats V) net w tf name subset dd tgz ds rows y n,
    train_missing w (dd ++ [name]) ->
    (w_dirs w (dd ++ [name]) = true -> tf = true) ->
    net (w_count w) (dataset_url name) = Ok tgz -> good_archive F tgz name ds ->
    subset_of ds subset rows y n ->
    exists w' r, run net (load_dataset F tf name subset dd) w = (w', r) /\ returns r rows y n /\
      (forall net' tf' subset' rows' y' n', subset_of ds subset' rows' y' n' ->
         exists r', run net' (load_dataset F tf' name subset' dd) w' = (w', r') /\ returns r' rows' y' n').
Proof.
  intros V F net w tf name subset dd tgz ds rows y n Hm Hd Hn Hg Hs.
  rewrite (proj1 (dataset_missing F net w tf name subset dd Hm)).
  destruct (fetch_run F net w tf name subset dd tgz ds Hd Hn Hg) as (w' & R & St).
  destruct (rest_run F net w' _ ds subset rows y n St Hs) as (r & Rr & Hr).
  exists w', r. rewrite R. split; [exact Rr|]. split; [exact Hr|].
  intros net' tf' subset' rows' y' n' Hs'.
  exact (main_C72_subset_partial V F net' w' tf' name subset' dd ds rows' y' n' St Hs').
Qed.

(** With TensorFlow's makedirs: killed anywhere, as long as a training file is
    still missing, a later uninterrupted call returns the complete dataset. *)
Lemma main_C70_recover_partial :
  forall (V : Type) (F : formats V) net net0 w k subset0 name subset dd tgz ds rows y n,
    let w1 := crash net0 k (load_dataset F true name subset0 dd) w in
    train_missing w1 (dd ++ [name]) ->
    net (w_count w1) (dataset_url name) = Ok tgz -> good_archive F tgz name ds ->
    subset_of ds subset rows y n ->
    exists r, snd (run net (load_dataset F true name subset dd) w1) = r /\ returns r rows y n.
Proof.
  intros V F net net0 w k subset0 name subset dd tgz ds rows y n w1 Hm Hn Hg Hs.
  destruct (main_C70_first_call V F net w1 true name subset dd tgz ds rows y n Hm (fun _ => eq_refl) Hn Hg Hs)
    as (w' & r & R & Hr & _).
  exists r. rewrite R. auto.
Qed.

Lemma crash_dirs {A} net q : forall n (p : prog A) w,
  w_dirs w q = true -> w_dirs (crash net n p w) q = true.
Proof.
  induction n as [|n IH]; intros p w H; [exact H|].
  cbn [crash]. destruct p; cbn [step]; auto.
  - destruct (w_dirs w p && negb b); auto. apply IH. cbn. rewrite H. apply orb_true_r.
  - destruct (net (w_count w) s); apply IH; exact H.
  - destruct (w_dirs w (parent p)); auto.
  - destruct (w_files w p); auto.
  - destruct (w_files w p); auto.
  - destruct (w_files w p); auto.
Qed.

(** Without TensorFlow: killed at any point after the directory is made (the
    fifth operation) while a training file is missing, every later call raises
    FileExistsError, whatever the network does; and right after the fifth
    operation a training file is indeed missing. *)
Lemma main_C70_retry_refuted :
  forall (V : Type) (F : formats V) net w subset0 name dd,
    train_missing w (dd ++ [name]) -> w_dirs w (dd ++ [name]) = false ->
    train_missing (crash net 5 (load_dataset F false name subset0 dd) w) (dd ++ [name]) /\
    forall k, (5 <= k)%nat ->
    let w1 := crash net k (load_dataset F false name subset0 dd) w in
    train_missing w1 (dd ++ [name]) ->
    forall net' subset,
      run net' (load_dataset F false name subset dd) w1 = (w1, Err FileExistsError).
Proof.
  intros V F net w subset0 name dd Hm Hd.
  assert (E : forall j, exists p : prog (csr V * list Z),
            crash net (5 + j) (load_dataset F false name subset0 dd) w
            = crash net j p (mkdirs (dd ++ [name]) w)).
  { intros j. change (5 + j)%nat with (4 + S j)%nat.
    rewrite (proj2 (dataset_missing F net w false name subset0 dd Hm) (S j)).
    unfold fetch_branch. cbn [crash step]. rewrite Hd. cbn [andb]. eexists. reflexivity. }
  split.
  { destruct (E 0%nat) as (p & Ep). cbn [Nat.add] in Ep. rewrite Ep. exact Hm. }
  intros k Hk w1 Hm1 net' subset.
  assert (Hd1 : w_dirs w1 (dd ++ [name]) = true).
  { destruct (E (k - 5)%nat) as (p & Ep). unfold w1.
    replace k with (5 + (k - 5))%nat by lia. rewrite Ep. apply crash_dirs.
    cbn [mkdirs w_dirs]. rewrite prefix_refl. reflexivity. }
  rewrite (proj1 (dataset_missing F net' _ false name subset dd Hm1)).
  unfold fetch_branch. cbn [run]. rewrite Hd1. reflexivity.
Qed.

(** With either makedirs: once the four training files exist, an incomplete
    dataset is never completed: the test files that are missing stay missing. *)
Lemma main_C70_incomplete_refuted :
  forall (V : Type) (F : formats V) w tf name dd,
    ~ train_missing w (dd ++ [name]) ->
    w_files w ((dd ++ [name]) ++ ["X_test.data.npy"%string]) = None ->
    forall net subset, subset <> "train"%string ->
      exists e, run net (load_dataset F tf name subset dd) w = (w, Err e).
Proof.
  intros V F w tf name dd Hp Ht net subset Hs.
  rewrite dataset_present.
  2:{ intros f Hf E. apply Hp. exists f. auto. }
  unfold load_rest. rewrite run_pbind.
  assert (G : exists r, run net (load_train F (dd ++ [name])) w = (w, r)).
  { clear Ht. unfold load_train, load_part, load_v, load_i.
    rewrite run_pbind. cbn [run].
    destruct (w_files w _); [|eexists; reflexivity]. rewrite run_plift.
    destruct (f_npv F b); [|eexists; reflexivity].
    rewrite run_pbind. cbn [run].
    destruct (w_files w _); [|eexists; reflexivity]. rewrite run_plift.
    destruct (f_npi F b0); [|eexists; reflexivity].
    rewrite run_pbind. cbn [run].
    destruct (w_files w _); [|eexists; reflexivity]. rewrite run_plift.
    destruct (f_npi F b1); [|eexists; reflexivity].
    rewrite run_pbind. cbn [run].
    destruct (w_files w _); [|eexists; reflexivity]. rewrite run_plift.
    destruct (f_npi F b2); [|eexists; reflexivity].
    rewrite run_pbind, run_plift. destruct (csr_matrix _ _ _); eexists; reflexivity. }
  destruct G as (r & G). rewrite G. destruct r as [tr|e]; [|exists e; reflexivity].
  rewrite (proj2 (String.eqb_neq _ _) Hs).
  exists FileNotFoundError. rewrite run_pbind. unfold load_test, load_part, load_v.
  rewrite run_pbind. cbn [run]. rewrite Ht. reflexivity.
Qed.
