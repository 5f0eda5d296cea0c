(** C71: the loaders that download from LIBSVM and criteo. *)
From Coq Require Import String.
From Coq Require Import List ZArith Bool Arith Lia.
From Verif Require Import Vec ModelDatasets SpecDatasets DatasetsFacts DatasetsMain.
Import ListNotations.
Open Scope list_scope.

Lemma block_pos : (0 < block)%nat.
Proof. unfold block. lia. Qed.
Opaque block.

Lemma snoc_neq (d : path) (a b : string) : a <> b -> d ++ [a] <> d ++ [b].
Proof. intros H E. apply app_inv_head in E. congruence. Qed.

Lemma ensure_run {A} net dir (k : prog A) w :
  exists w', run net (ensure_dir dir k) w = run net k w' /\
    w_dirs w' dir = true /\ (forall q, w_files w' q = w_files w q) /\ w_count w' = w_count w /\
    (w_dirs w dir = true -> w' = w).
Proof.
  unfold ensure_dir. cbn [run]. destruct (w_dirs w dir) eqn:E.
  - exists w. auto.
  - cbn [run]. rewrite E. cbn [andb]. exists (mkdirs dir w). repeat split; auto; try congruence.
    cbn. now rewrite prefix_refl.
Qed.

Lemma retrieve_run {A} net u dir f (k : prog A) w d :
  w_dirs w dir = true -> net (w_count w) u = Ok d ->
  exists w', run net (urlretrieve u (dir ++ [f]) k) w = run net k w' /\
    w_files w' (dir ++ [f]) = Some d /\ (forall q, q <> dir ++ [f] -> w_files w' q = w_files w q) /\
    (forall q, w_dirs w' q = w_dirs w q) /\ w_count w' = S (w_count w).
Proof.
  intros Hd Hn. unfold urlretrieve. cbn [run]. rewrite Hn.
  destruct (write_file_run net block (dir ++ [f]) d k (tick w) block_pos) as (w' & R & W1 & W2 & W3 & W4).
  { rewrite parent_snoc. exact Hd. }
  exists w'. repeat split; auto.
Qed.

Lemma retrieve_fail {A} net u dir f (k : prog A) w e :
  net (w_count w) u = Err e -> run net (urlretrieve u (dir ++ [f]) k) w = (tick w, Err e).
Proof. intros Hn. unfold urlretrieve. cbn [run]. now rewrite Hn. Qed.

Section MAIN.
Context {V : Type} (F : formats V).

Lemma save_run {A} net dir fd fi fp ft d ix ip y (k : prog A) w :
  w_dirs w dir = true -> NoDup [fd; fi; fp; ft] ->
  exists w', run net (save_arrays F (dir ++ [fd]) (dir ++ [fi]) (dir ++ [fp]) (dir ++ [ft]) d ix ip y k) w
             = run net k w' /\
    w_files w' (dir ++ [fd]) = Some (f_savev F d) /\ w_files w' (dir ++ [fi]) = Some (f_savei F ix) /\
    w_files w' (dir ++ [fp]) = Some (f_savei F ip) /\ w_files w' (dir ++ [ft]) = Some (f_savei F y) /\
    (forall f, ~ In f [fd; fi; fp; ft] -> w_files w' (dir ++ [f]) = w_files w (dir ++ [f])) /\
    (forall q, w_dirs w' q = w_dirs w q) /\ w_count w' = w_count w.
Proof.
  intros Hd ND. inversion ND as [|? ? N1 ND1]; subst. inversion ND1 as [|? ? N2 ND2]; subst.
  inversion ND2 as [|? ? N3 ND3]; subst. cbn [In] in N1, N2, N3.
  unfold save_arrays.
  edestruct (fun k => write_file_run (A:=A) net block (dir ++ [fd]) (f_savev F d) k w block_pos) as (w1 & R1 & A1 & B1 & C1 & T1);
    [now rewrite parent_snoc|].
  edestruct (fun k => write_file_run (A:=A) net block (dir ++ [fi]) (f_savei F ix) k w1 block_pos) as (w2 & R2 & A2 & B2 & C2 & T2);
    [now rewrite parent_snoc, C1|].
  edestruct (fun k => write_file_run (A:=A) net block (dir ++ [fp]) (f_savei F ip) k w2 block_pos) as (w3 & R3 & A3 & B3 & C3 & T3);
    [now rewrite parent_snoc, C2, C1|].
  edestruct (fun k => write_file_run (A:=A) net block (dir ++ [ft]) (f_savei F y) k w3 block_pos) as (w4 & R4 & A4 & B4 & C4 & T4);
    [now rewrite parent_snoc, C3, C2, C1|].
  exists w4. split; [rewrite R1, R2, R3, R4; reflexivity|]. repeat split.
  - rewrite B4, B3, B2; try (apply snoc_neq; intuition congruence); auto.
  - rewrite B4, B3; try (apply snoc_neq; intuition congruence); auto.
  - rewrite B4; try (apply snoc_neq; intuition congruence); auto.
  - exact A4.
  - intros f Hf. cbn [In] in Hf. rewrite B4, B3, B2, B1; try (apply snoc_neq; intuition congruence); auto.
  - intros q. now rewrite C4, C3, C2, C1.
  - now rewrite T4, T3, T2, T1.
Qed.

Lemma arrays_run net w dir fd fi fp ft d ix ip y cd ci cp ct :
  w_files w (dir ++ [fd]) = Some cd -> f_npv F cd = Ok d ->
  w_files w (dir ++ [fi]) = Some ci -> f_npi F ci = Ok ix ->
  w_files w (dir ++ [fp]) = Some cp -> f_npi F cp = Ok ip ->
  w_files w (dir ++ [ft]) = Some ct -> f_npi F ct = Ok y ->
  run net (load_arrays F (dir ++ [fd]) (dir ++ [fi]) (dir ++ [fp]) (dir ++ [ft])) w
  = (w, match csr_matrix d ix ip with Ok m => Ok (m, y) | Err e => Err e end).
Proof.
  intros E1 D1 E2 D2 E3 D3 E4 D4. unfold load_arrays, load_v, load_i.
  rewrite run_pbind. cbn [run]. rewrite E1, run_plift, D1.
  rewrite run_pbind. cbn [run]. rewrite E2, run_plift, D2.
  rewrite run_pbind. cbn [run]. rewrite E3, run_plift, D3.
  rewrite run_pbind, run_plift. destruct (csr_matrix d ix ip) as [m|e]; [|reflexivity].
  rewrite run_pbind. cbn [run]. rewrite E4, run_plift, D4. reflexivity.
Qed.

(** The tail common to load_url and load_kdd12. *)
Definition tail_of (dir : path) (fd fi fp ft : string) : prog (csr V * list Z) :=
  pbind (load_arrays F (dir ++ [fd]) (dir ++ [fi]) (dir ++ [fp]) (dir ++ [ft]))
        (fun r => Ret (fst r, relabel (snd r))).

(** Unpacking a downloaded file: what the call returns is what the file holds. *)
Lemma unpack_run net dir bz txt fd fi fp ft w c :
  npy_roundtrip F -> NoDup [bz; txt; fd; fi; fp; ft] ->
  w_dirs w dir = true -> w_files w (dir ++ [bz]) = Some c ->
  match f_bunzip F c with
  | Err e => run net (unpack_save F dir bz txt fd fi fp ft (tail_of dir fd fi fp ft)) w = (w, Err e)
  | Ok t => exists w', w_files w' (dir ++ [bz]) = Some c /\ w_dirs w' dir = true /\
    match f_svm F t with
    | Err e => run net (unpack_save F dir bz txt fd fi fp ft (tail_of dir fd fi fp ft)) w = (w', Err e)
    | Ok (d, ix, ip, y) =>
        let r := match csr_matrix d ix ip with Ok m => Ok (m, relabel y) | Err e => Err e end in
        run net (unpack_save F dir bz txt fd fi fp ft (tail_of dir fd fi fp ft)) w = (w', r) /\
        (forall net', run net' (tail_of dir fd fi fp ft) w' = (w', r))
    end
  end.
Proof.
  intros (RV & RI) ND Hd Hbz. unfold unpack_save. cbn [run]. rewrite Hbz, run_pbind, run_plift.
  destruct (f_bunzip F c) as [t|e]; [|reflexivity].
  inversion ND as [|? ? N1 ND1]; subst. inversion ND1 as [|? ? N2 ND2]; subst. cbn [In] in N1, N2.
  edestruct (fun k => write_file_run (A:=csr V * list Z) net block (dir ++ [txt]) t k w block_pos) as (w1 & R1 & A1 & B1 & C1 & T1);
    [now rewrite parent_snoc|].
  rewrite R1. cbn [run]. rewrite A1, run_pbind, run_plift.
  assert (Hbz1 : w_files w1 (dir ++ [bz]) = Some c).
  { rewrite B1; [exact Hbz|]. apply snoc_neq. intros E. apply N1. now left. }
  destruct (f_svm F t) as [[[[d ix] ip] y]|e]; [|exists w1; rewrite C1; auto].
  edestruct (fun k => save_run (A:=csr V * list Z) net dir fd fi fp ft d ix ip y k w1) as (w2 & R2 & S1 & S2 & S3 & S4 & S5 & S6 & S7);
    [now rewrite C1|exact ND2|].
  exists w2. split; [rewrite S5; [exact Hbz1|cbn [In]; tauto]|]. split; [now rewrite S6, C1|].
  assert (G : forall net', run net' (tail_of dir fd fi fp ft) w2 =
     (w2, match csr_matrix d ix ip with Ok m => Ok (m, relabel y) | Err e => Err e end)).
  { intros net'. unfold tail_of. rewrite run_pbind.
    rewrite (arrays_run net' w2 dir fd fi fp ft d ix ip y _ _ _ _ S1 (RV d) S2 (RI ix) S3 (RI ip) S4 (RI y)).
    destruct (csr_matrix d ix ip); reflexivity. }
  split; [rewrite R2; apply G|exact G].
Qed.

Lemma holds_csr (rows : list (row V)) t y n :
  svm_holds F t rows y n ->
  exists d ix ip m, f_svm F t = Ok (d, ix, ip, y) /\ csr_matrix d ix ip = Ok m /\ is_matrix m rows n.
Proof.
  intros (d & ix & ip & E & He & Hw). destruct (csr_matrix_ok rows d ix ip n He Hw) as (m & Em & Hm).
  exists d, ix, ip, m. auto.
Qed.

Definition url_names := ["url_combined.bz2"; "url_combined"; "url_combined.data.npy";
  "url_combined.indices.npy"; "url_combined.indptr.npy"; "url_combined.target.npy"]%string.
Definition kdd12_names := ["kdd12.bz2"; "kdd12"; "kdd12.data.npy";
  "kdd12.indices.npy"; "kdd12.indptr.npy"; "kdd12.target.npy"]%string.
Lemma url_nodup : NoDup url_names.
Proof. unfold url_names. repeat constructor; cbn [In]; intuition discriminate. Qed.
Lemma kdd12_nodup : NoDup kdd12_names.
Proof. unfold kdd12_names. repeat constructor; cbn [In]; intuition discriminate. Qed.

Definition url_tail dir := tail_of dir "url_combined.data.npy" "url_combined.indices.npy"
  "url_combined.indptr.npy" "url_combined.target.npy".
Definition url_unpack dir := unpack_save F dir "url_combined.bz2" "url_combined" "url_combined.data.npy"
  "url_combined.indices.npy" "url_combined.indptr.npy" "url_combined.target.npy" (url_tail dir).
Definition kdd12_tail dir := tail_of dir "kdd12.data.npy" "kdd12.indices.npy"
  "kdd12.indptr.npy" "kdd12.target.npy".
Definition kdd12_unpack dir := unpack_save F dir "kdd12.bz2" "kdd12" "kdd12.data.npy"
  "kdd12.indices.npy" "kdd12.indptr.npy" "kdd12.target.npy" (kdd12_tail dir).

Lemma load_url_eq n md5_check dir : load_url F (S n) md5_check dir =
  ensure_dir dir (FileExists (dir ++ ["url_combined.bz2"%string]) (fun b =>
    if b then url_tail dir
    else urlretrieve url_url (dir ++ ["url_combined.bz2"%string])
      (if md5_check
       then ReadFile (dir ++ ["url_combined.bz2"%string]) (fun c =>
            if String.eqb (f_md5 F c) url_md5 then url_unpack dir
            else Remove (dir ++ ["url_combined.bz2"%string]) (load_url F n true dir))
       else url_unpack dir))).
Proof. reflexivity. Qed.

Lemma load_kdd12_eq n md5_check dir : load_kdd12 F (S n) md5_check dir =
  ensure_dir dir (FileExists (dir ++ ["kdd12.bz2"%string]) (fun b =>
    if b then kdd12_tail dir
    else urlretrieve kdd12_url (dir ++ ["kdd12.bz2"%string])
      (if md5_check
       then ReadFile (dir ++ ["kdd12.bz2"%string]) (fun c =>
            if String.eqb (f_md5 F c) kdd12_md5 then kdd12_unpack dir
            else Remove (dir ++ ["kdd12.bz2"%string]) (load_url F n true dir))
       else kdd12_unpack dir))).
Proof. reflexivity. Qed.

(** A cached file: the call is the reload of the arrays. *)
Lemma url_cached net w dir n md5_check c :
  w_dirs w dir = true -> w_files w (dir ++ ["url_combined.bz2"%string]) = Some c ->
  run net (load_url F (S n) md5_check dir) w = run net (url_tail dir) w.
Proof.
  intros Hd Hc. rewrite load_url_eq.
  edestruct (fun k => ensure_run (A:=csr V * list Z) net dir k w) as (w1 & R & _ & _ & _ & E).
  rewrite R, (E Hd). cbn [run]. rewrite Hc. reflexivity.
Qed.

Lemma kdd12_cached net w dir n md5_check c :
  w_dirs w dir = true -> w_files w (dir ++ ["kdd12.bz2"%string]) = Some c ->
  run net (load_kdd12 F (S n) md5_check dir) w = run net (kdd12_tail dir) w.
Proof.
  intros Hd Hc. rewrite load_kdd12_eq.
  edestruct (fun k => ensure_run (A:=csr V * list Z) net dir k w) as (w1 & R & _ & _ & _ & E).
  rewrite R, (E Hd). cbn [run]. rewrite Hc. reflexivity.
Qed.

End MAIN.

(** * load_url *)
(** Whatever number of bad downloads come first, the call returns the genuine
    file's rows, with 0/1 labels, and later calls return the same from disk. *)
Lemma main_C71_url :
  forall (V : Type) (F : formats V) net dir c rows y n,
    npy_roundtrip F -> bz_holds F url_md5 c rows y n ->
    forall j fuel w, (j < fuel)%nat ->
    w_files w (dir ++ ["url_combined.bz2"%string]) = None ->
    serves_after F net url_url url_md5 (w_count w) j c ->
    exists w' r, run net (load_url F fuel true dir) w = (w', r) /\ returns r rows (relabel y) n /\
      forall net' fuel' md5_check', (0 < fuel')%nat ->
        run net' (load_url F fuel' md5_check' dir) w' = (w', r).
Proof.
  intros V F net dir c rows y n RT (Hmd & t & Ht & Hsvm).
  destruct (holds_csr F rows t y n Hsvm) as (d & ix & ip & m & Es & Em & Mm).
  induction j as [|j IH]; intros fuel w Hf Hw (Hc & Hbad).
  - destruct fuel as [|fuel]; [lia|]. rewrite Nat.add_0_r in Hc.
    rewrite load_url_eq.
    edestruct (fun k => ensure_run (A:=csr V * list Z) net dir k w) as (w1 & R1 & D1 & F1 & C1 & _).
    rewrite R1. cbn [run]. rewrite F1, Hw.
    edestruct (fun k => retrieve_run (A:=csr V * list Z) net url_url dir "url_combined.bz2" k w1 c D1) as (w2 & R2 & P2 & Q2 & D2 & C2);
      [now rewrite C1|].
    rewrite R2. cbn [run]. rewrite P2, Hmd, String.eqb_refl.
    assert (U := unpack_run F net dir "url_combined.bz2" "url_combined" "url_combined.data.npy"
      "url_combined.indices.npy" "url_combined.indptr.npy" "url_combined.target.npy" w2 c RT url_nodup
      (eq_trans (D2 dir) D1) P2).
    rewrite Ht in U. destruct U as (w3 & P3 & D3 & U). rewrite Es in U.
    cbv zeta in U. rewrite Em in U. destruct U as (U1 & U2).
    exists w3, (Ok (m, relabel y)). split; [exact U1|]. split; [exists m; auto|].
    intros net' fuel' md5' Hf'. destruct fuel' as [|fuel']; [lia|].
    rewrite (url_cached F net' w3 dir fuel' md5' c D3 P3). apply U2.
  - destruct fuel as [|fuel]; [lia|].
    destruct (Hbad 0%nat ltac:(lia)) as (b & Hb & Hbm). rewrite Nat.add_0_r in Hb.
    rewrite load_url_eq.
    edestruct (fun k => ensure_run (A:=csr V * list Z) net dir k w) as (w1 & R1 & D1 & F1 & C1 & _).
    rewrite R1. cbn [run]. rewrite F1, Hw.
    edestruct (fun k => retrieve_run (A:=csr V * list Z) net url_url dir "url_combined.bz2" k w1 b D1) as (w2 & R2 & P2 & Q2 & D2 & C2);
      [now rewrite C1|].
    rewrite R2. cbn [run]. rewrite P2, (proj2 (String.eqb_neq _ _) Hbm). cbn [run]. rewrite P2.
    apply IH; [lia| |].
    + cbn. now rewrite path_eqb_refl.
    + cbn [put w_count]. rewrite C2, C1. split.
      * rewrite <- Hc. f_equal. lia.
      * intros i Hi. destruct (Hbad (S i) ltac:(lia)) as (b' & E & N). exists b'. split; [|exact N].
        rewrite <- E. f_equal. lia.
Qed.

(** A result is never made from a file whose digest is wrong. *)
Lemma main_C71_url_only_genuine :
  forall (V : Type) (F : formats V) net dir, npy_roundtrip F ->
    forall fuel w w' m y', w_files w (dir ++ ["url_combined.bz2"%string]) = None ->
    run net (load_url F fuel true dir) w = (w', Ok (m, y')) ->
    exists k c t d ix ip y, (w_count w <= k)%nat /\ net k url_url = Ok c /\ f_md5 F c = url_md5 /\
      f_bunzip F c = Ok t /\ f_svm F t = Ok (d, ix, ip, y) /\ csr_matrix d ix ip = Ok m /\ y' = relabel y.
Proof.
  intros V F net dir RT. induction fuel as [|fuel IH]; intros w w' m y' Hw R.
  - discriminate.
  - rewrite load_url_eq in R.
    edestruct (fun k => ensure_run (A:=csr V * list Z) net dir k w) as (w1 & R1 & D1 & F1 & C1 & _).
    rewrite R1 in R. cbn [run] in R. rewrite F1, Hw in R.
    destruct (net (w_count w1) url_url) as [c|e] eqn:Hn.
    2:{ rewrite (retrieve_fail net url_url dir _ _ w1 e Hn) in R. discriminate. }
    edestruct (fun k => retrieve_run (A:=csr V * list Z) net url_url dir "url_combined.bz2" k w1 c D1 Hn) as (w2 & R2 & P2 & Q2 & D2 & C2).
    rewrite R2 in R. cbn [run] in R. rewrite P2 in R.
    destruct (String.eqb_spec (f_md5 F c) url_md5) as [Em|Em].
    + assert (U := unpack_run F net dir "url_combined.bz2" "url_combined" "url_combined.data.npy"
        "url_combined.indices.npy" "url_combined.indptr.npy" "url_combined.target.npy" w2 c RT url_nodup
        (eq_trans (D2 dir) D1) P2).
      change (run net (url_unpack F dir) w2 = (w', Ok (m, y'))) in R.
      destruct (f_bunzip F c) as [t|e] eqn:Eb.
      2:{ assert (X := eq_trans (eq_sym U) R). discriminate. }
      destruct U as (w3 & _ & _ & U). destruct (f_svm F t) as [[[[d ix] ip] y]|e] eqn:Es.
      2:{ assert (X := eq_trans (eq_sym U) R). discriminate. }
      cbv zeta in U. destruct U as (U1 & _). assert (X := eq_trans (eq_sym U1) R).
      destruct (csr_matrix d ix ip) as [m0|e] eqn:Ec; [|discriminate].
      injection X as _ E2 E3. subst m0 y'.
      exists (w_count w1), c, t, d, ix, ip, y. rewrite C1 in *. repeat split; auto.
    + cbn [run] in R. rewrite P2 in R.
      assert (Hw2 : w_files (put (dir ++ ["url_combined.bz2"%string]) None w2) (dir ++ ["url_combined.bz2"%string]) = None)
        by (cbn; now rewrite path_eqb_refl).
      destruct (IH _ _ _ _ Hw2 R)
        as (k & c' & t & d & ix & ip & y & Hk & H).
      exists k, c', t, d, ix, ip, y. split; [|exact H]. cbn in Hk. lia.
Qed.

(** A server that never delivers a genuine file: the call never returns, whatever
    the recursion depth allowed. *)
Lemma main_C71_url_never :
  forall (V : Type) (F : formats V) net dir,
    (forall k, exists b, net k url_url = Ok b /\ f_md5 F b <> url_md5) ->
    forall fuel w, w_files w (dir ++ ["url_combined.bz2"%string]) = None ->
    snd (run net (load_url F fuel true dir) w) = Err OutOfFuel.
Proof.
  intros V F net dir Hb. induction fuel as [|fuel IH]; intros w Hw; [reflexivity|].
  rewrite load_url_eq.
  edestruct (fun k => ensure_run (A:=csr V * list Z) net dir k w) as (w1 & R1 & D1 & F1 & C1 & _).
  rewrite R1. cbn [run]. rewrite F1, Hw. destruct (Hb (w_count w1)) as (b & Hn & Hm).
  edestruct (fun k => retrieve_run (A:=csr V * list Z) net url_url dir "url_combined.bz2" k w1 b D1 Hn) as (w2 & R2 & P2 & Q2 & D2 & C2).
  rewrite R2. cbn [run]. rewrite P2, (proj2 (String.eqb_neq _ _) Hm). cbn [run]. rewrite P2.
  apply IH. cbn. now rewrite path_eqb_refl.
Qed.

(** * load_kdd12 *)
Lemma main_C71_kdd12_partial :
  forall (V : Type) (F : formats V) net dir c rows y n,
    npy_roundtrip F -> bz_holds F kdd12_md5 c rows y n ->
    forall fuel w md5_check, (0 < fuel)%nat ->
    w_files w (dir ++ ["kdd12.bz2"%string]) = None ->
    net (w_count w) kdd12_url = Ok c ->
    exists w' r, run net (load_kdd12 F fuel md5_check dir) w = (w', r) /\ returns r rows (relabel y) n /\
      forall net' fuel' md5_check', (0 < fuel')%nat ->
        run net' (load_kdd12 F fuel' md5_check' dir) w' = (w', r).
Proof.
  intros V F net dir c rows y n RT (Hmd & t & Ht & Hsvm) fuel w md5_check Hf Hw Hc.
  destruct (holds_csr F rows t y n Hsvm) as (d & ix & ip & m & Es & Em & Mm).
  destruct fuel as [|fuel]; [lia|]. rewrite load_kdd12_eq.
  edestruct (fun k => ensure_run (A:=csr V * list Z) net dir k w) as (w1 & R1 & D1 & F1 & C1 & _).
  rewrite R1. cbn [run]. rewrite F1, Hw.
  edestruct (fun k => retrieve_run (A:=csr V * list Z) net kdd12_url dir "kdd12.bz2" k w1 c D1) as (w2 & R2 & P2 & Q2 & D2 & C2);
    [now rewrite C1|].
  rewrite R2.
  assert (U := unpack_run F net dir "kdd12.bz2" "kdd12" "kdd12.data.npy"
    "kdd12.indices.npy" "kdd12.indptr.npy" "kdd12.target.npy" w2 c RT kdd12_nodup
    (eq_trans (D2 dir) D1) P2).
  rewrite Ht in U. destruct U as (w3 & P3 & D3 & U). rewrite Es in U.
  cbv zeta in U. rewrite Em in U. destruct U as (U1 & U2).
  exists w3, (Ok (m, relabel y)). split; [|split; [exists m; auto|]].
  - destruct md5_check; [|exact U1]. cbn [run]. rewrite P2, Hmd, String.eqb_refl. exact U1.
  - intros net' fuel' md5' Hf'. destruct fuel' as [|fuel']; [lia|].
    rewrite (kdd12_cached F net' w3 dir fuel' md5' c D3 P3). apply U2.
Qed.

(** After a bad download load_kdd12 returns the URL dataset. *)
Lemma main_C71_kdd12_refuted :
  forall (V : Type) (F : formats V) net dir b c rows y n,
    npy_roundtrip F -> f_md5 F b <> kdd12_md5 -> bz_holds F url_md5 c rows y n ->
    forall fuel w, (1 < fuel)%nat ->
    w_files w (dir ++ ["kdd12.bz2"%string]) = None ->
    w_files w (dir ++ ["url_combined.bz2"%string]) = None ->
    net (w_count w) kdd12_url = Ok b -> net (S (w_count w)) url_url = Ok c ->
    exists w' r, run net (load_kdd12 F fuel true dir) w = (w', r) /\ returns r rows (relabel y) n.
Proof.
  intros V F net dir b c rows y n RT Hb Hc fuel w Hf Hw Hu Nb Nc.
  destruct fuel as [|fuel]; [lia|]. rewrite load_kdd12_eq.
  edestruct (fun k => ensure_run (A:=csr V * list Z) net dir k w) as (w1 & R1 & D1 & F1 & C1 & _).
  rewrite R1. cbn [run]. rewrite F1, Hw.
  edestruct (fun k => retrieve_run (A:=csr V * list Z) net kdd12_url dir "kdd12.bz2" k w1 b D1) as (w2 & R2 & P2 & Q2 & D2 & C2);
    [now rewrite C1|].
  rewrite R2. cbn [run]. rewrite P2, (proj2 (String.eqb_neq _ _) Hb). cbn [run]. rewrite P2.
  destruct (main_C71_url V F net dir c rows y n RT Hc 0 fuel
              (put (dir ++ ["kdd12.bz2"%string]) None w2) ltac:(lia)) as (w' & r & R & Hr & _).
  - cbn [put w_files]. rewrite path_eqb_neq; [|apply snoc_neq; discriminate].
    rewrite Q2, F1; [exact Hu|apply snoc_neq; discriminate].
  - unfold serves_after. cbn [put w_count]. rewrite C2, C1, Nat.add_0_r. split; [exact Nc|intros i Hi; lia].
  - exists w', r. auto.
Qed.

(** * load_kdd10 *)
(** The digest is checked on every call, so a cached file left by anything else
    is never used. *)
Lemma main_C71_kdd10_only_genuine :
  forall (V : Type) (F : formats V) net dir fuel w w' m y',
    run net (load_kdd10 F fuel true dir) w = (w', Ok (m, y')) ->
    exists c t d ix ip, f_md5 F c = kdd10_md5 /\ w_files w' (dir ++ ["kddb.bz2"%string]) = Some c /\
      f_bunzip F c = Ok t /\ f_svm F t = Ok (d, ix, ip, y') /\ csr_matrix d ix ip = Ok m.
Proof.
  intros V F net dir. induction fuel as [|fuel IH]; intros w w' m y' R; [discriminate|].
  cbn [load_kdd10] in R.
  edestruct (fun k => ensure_run (A:=csr V * list Z) net dir k w) as (w1 & R1 & D1 & F1 & C1 & _).
  rewrite R1 in R. cbn [run] in R.
  set (fp := dir ++ ["kddb.bz2"%string]) in *.
  assert (G : exists w2 c, w_files w2 fp = Some c /\
    run net (if String.eqb (f_md5 F c) kdd10_md5
     then ReadFile fp (fun z => pbind (plift (f_bunzip F z)) (fun t =>
            pbind (plift (f_svm F t)) (fun q => let '(d, ix, ip, y) := q in
            pbind (plift (csr_matrix d ix ip)) (fun m0 => Ret (m0, y)))))
     else Remove fp (load_kdd10 F fuel true dir)) w2 = (w', Ok (m, y'))).
  { destruct (w_files w1 fp) as [c|] eqn:Ef.
    - exists w1, c. split; [exact Ef|]. cbn [run] in R. rewrite Ef in R. exact R.
    - destruct (net (w_count w1) kdd10_url) as [c|e] eqn:Hn.
      2:{ unfold fp in R. rewrite (retrieve_fail net kdd10_url dir _ _ w1 e Hn) in R. discriminate. }
      edestruct (fun k => retrieve_run (A:=csr V * list Z) net kdd10_url dir "kddb.bz2" k w1 c D1 Hn) as (w2 & R2 & P2 & Q2 & D2 & C2).
      fold fp in R2, P2. rewrite R2 in R. cbn [run] in R. rewrite P2 in R. exists w2, c. auto. }
  clear R. destruct G as (w2 & c & Ef & R).
  destruct (String.eqb_spec (f_md5 F c) kdd10_md5) as [Em|Em].
  - cbn [run] in R. rewrite Ef, run_pbind, run_plift in R.
    destruct (f_bunzip F c) as [t|e] eqn:Eb; [|discriminate].
    rewrite run_pbind, run_plift in R. destruct (f_svm F t) as [[[[d ix] ip] y]|e] eqn:Es; [|discriminate].
    rewrite run_pbind, run_plift in R. destruct (csr_matrix d ix ip) as [m0|e] eqn:Ec; [|discriminate].
    cbn [run] in R. injection R as E1 E2 E3. subst.
    exists c, t, d, ix, ip. auto.
  - cbn [run] in R. rewrite Ef in R. exact (IH _ _ _ _ R).
Qed.

(** From any state of the disk, including a truncated or foreign cached file. *)
Lemma main_C71_kdd10 :
  forall (V : Type) (F : formats V) net dir c rows y n,
    bz_holds F kdd10_md5 c rows y n ->
    forall j fuel w, (S j < fuel)%nat ->
    serves_after F net kdd10_url kdd10_md5 (w_count w) j c ->
    (forall b, w_files w (dir ++ ["kddb.bz2"%string]) = Some b -> f_md5 F b <> kdd10_md5) ->
    exists w' r, run net (load_kdd10 F fuel true dir) w = (w', r) /\ returns r rows y n.
Proof.
  intros V F net dir c rows y n (Hmd & t & Ht & Hsvm).
  destruct (holds_csr F rows t y n Hsvm) as (d & ix & ip & m & Es & Em & Mm).
  set (fp := dir ++ ["kddb.bz2"%string]).
  assert (L : forall j fuel w, (j < fuel)%nat ->
    serves_after F net kdd10_url kdd10_md5 (w_count w) j c -> w_files w fp = None ->
    exists w' r, run net (load_kdd10 F fuel true dir) w = (w', r) /\ returns r rows y n).
  { induction j as [|j IH]; intros fuel w Hf (Hc & Hbad) Hw; destruct fuel as [|fuel]; try lia;
      cbn [load_kdd10]; fold fp.
    - rewrite Nat.add_0_r in Hc.
      edestruct (fun k => ensure_run (A:=csr V * list Z) net dir k w) as (w1 & R1 & D1 & F1 & C1 & _).
      rewrite R1. cbn [run]. rewrite F1, Hw.
      edestruct (fun k => retrieve_run (A:=csr V * list Z) net kdd10_url dir "kddb.bz2" k w1 c D1) as (w2 & R2 & P2 & Q2 & D2 & C2);
        [now rewrite C1|].
      fold fp in R2, P2. rewrite R2. cbn [run]. rewrite P2, Hmd, String.eqb_refl.
      cbn [run]. rewrite P2, run_pbind, run_plift, Ht, run_pbind, run_plift, Es, run_pbind, run_plift, Em.
      exists w2, (Ok (m, y)). split; [reflexivity|]. exists m. auto.
    - destruct (Hbad 0%nat ltac:(lia)) as (b & Hb & Hbm). rewrite Nat.add_0_r in Hb.
      edestruct (fun k => ensure_run (A:=csr V * list Z) net dir k w) as (w1 & R1 & D1 & F1 & C1 & _).
      rewrite R1. cbn [run]. rewrite F1, Hw.
      edestruct (fun k => retrieve_run (A:=csr V * list Z) net kdd10_url dir "kddb.bz2" k w1 b D1) as (w2 & R2 & P2 & Q2 & D2 & C2);
        [now rewrite C1|].
      fold fp in R2, P2. rewrite R2. cbn [run].
      rewrite P2, (proj2 (String.eqb_neq _ _) Hbm). cbn [run]. rewrite P2.
      apply IH; [lia| |cbn; now rewrite path_eqb_refl].
      cbn [put w_count]. rewrite C2, C1. split.
      + rewrite <- Hc. f_equal. lia.
      + intros i Hi. destruct (Hbad (S i) ltac:(lia)) as (b' & E & N). exists b'. split; [|exact N].
        rewrite <- E. f_equal. lia. }
  intros j fuel w Hf Hs Hb. destruct (w_files w fp) as [b|] eqn:Ef; [|apply (L j); auto; lia].
  destruct fuel as [|fuel]; [lia|]. cbn [load_kdd10]. fold fp.
  edestruct (fun k => ensure_run (A:=csr V * list Z) net dir k w) as (w1 & R1 & D1 & F1 & C1 & _).
  rewrite R1. cbn [run]. rewrite F1, Ef. cbn [run]. rewrite F1, Ef.
  rewrite (proj2 (String.eqb_neq _ _) (Hb b eq_refl)). cbn [run]. rewrite F1, Ef.
  apply (L j); [lia| |cbn; now rewrite path_eqb_refl].
  cbn [put w_count]. rewrite C1. exact Hs.
Qed.

(** * Labels *)
Lemma copy_ends {A} net chunk p (k : prog A) a w' : forall fuel c w,
  run net (copy_loop fuel chunk p c k) w = (w', Ok a) -> exists w2, run net k w2 = (w', Ok a).
Proof.
  induction fuel as [|n IH]; intros c w R; [discriminate|]. cbn [copy_loop] in R.
  destruct (Nat.eqb (List.length (firstn chunk c)) 0); [eauto|].
  cbn [run] in R. destruct (w_files w p); [eauto|discriminate].
Qed.

Lemma write_ends {A} net chunk p c (k : prog A) a w w' :
  run net (write_file chunk p c k) w = (w', Ok a) -> exists w2, run net k w2 = (w', Ok a).
Proof.
  unfold write_file. cbn [run]. destruct (w_dirs w (parent p)); [apply copy_ends|discriminate].
Qed.

Section ENDS.
Context {V : Type} (F : formats V).

Lemma unpack_ends net dir bz txt fd fi fp ft (k : prog (csr V * list Z)) a w w' :
  run net (unpack_save F dir bz txt fd fi fp ft k) w = (w', Ok a) -> exists w2, run net k w2 = (w', Ok a).
Proof.
  unfold unpack_save. cbn [run]. destruct (w_files w (dir ++ [bz])); [|discriminate].
  rewrite run_pbind, run_plift. destruct (f_bunzip F b); [|discriminate]. intros R.
  apply write_ends in R. destruct R as (w1 & R). cbn [run] in R.
  destruct (w_files w1 (dir ++ [txt])); [|discriminate].
  rewrite run_pbind, run_plift in R. destruct (f_svm F b1) as [[[[d ix] ip] y]|]; [|discriminate].
  unfold save_arrays in R.
  apply write_ends in R. destruct R as (w2 & R).
  apply write_ends in R. destruct R as (w3 & R).
  apply write_ends in R. destruct R as (w4 & R).
  apply write_ends in R. destruct R as (w5 & R). eauto.
Qed.

Lemma tail_labels net dir fd fi fp ft w w' m y :
  run net (tail_of F dir fd fi fp ft) w = (w', Ok (m, y)) ->
  exists ct raw, w_files w' (dir ++ [ft]) = Some ct /\ f_npi F ct = Ok raw /\ y = relabel raw.
Proof.
  unfold tail_of, load_arrays, load_v, load_i. rewrite run_pbind, run_pbind. cbn [run].
  destruct (w_files w (dir ++ [fd])); [|discriminate]. rewrite run_plift.
  destruct (f_npv F b); [|discriminate]. rewrite run_pbind. cbn [run].
  destruct (w_files w (dir ++ [fi])); [|discriminate]. rewrite run_plift.
  destruct (f_npi F b0); [|discriminate]. rewrite run_pbind. cbn [run].
  destruct (w_files w (dir ++ [fp])); [|discriminate]. rewrite run_plift.
  destruct (f_npi F b1); [|discriminate]. rewrite run_pbind, run_plift.
  destruct (csr_matrix l l0 l1); [|discriminate]. rewrite run_pbind. cbn [run].
  destruct (w_files w (dir ++ [ft])) as [ct|] eqn:Et; [|discriminate]. rewrite run_plift.
  destruct (f_npi F ct) as [raw|] eqn:Er; [|discriminate]. cbn [run fst snd].
  intros E. injection E as E1 E2 E3. subst. exists ct, raw. auto.
Qed.

Lemma urlretrieve_ends {A} net u p (k : prog A) a w w' :
  run net (urlretrieve u p k) w = (w', Ok a) -> exists w2, run net k w2 = (w', Ok a).
Proof.
  unfold urlretrieve. cbn [run]. destruct (net (w_count w) u); [apply write_ends|discriminate].
Qed.

Lemma url_ends net dir a w' : forall fuel md5_check w,
  run net (load_url F fuel md5_check dir) w = (w', Ok a) -> exists w2, run net (url_tail F dir) w2 = (w', Ok a).
Proof.
  induction fuel as [|fuel IH]; intros md5_check w R; [discriminate|].
  rewrite load_url_eq in R.
  edestruct (fun k => ensure_run (A:=csr V * list Z) net dir k w) as (w1 & R1 & _).
  rewrite R1 in R. cbn [run] in R.
  destruct (w_files w1 (dir ++ ["url_combined.bz2"%string])); [eauto|].
  apply urlretrieve_ends in R. destruct R as (w2 & R).
  destruct md5_check; [|exact (unpack_ends _ _ _ _ _ _ _ _ _ _ _ _ R)].
  cbn [run] in R. destruct (w_files w2 (dir ++ ["url_combined.bz2"%string])) eqn:Ef; [|discriminate].
  destruct (String.eqb (f_md5 F b) url_md5); [exact (unpack_ends _ _ _ _ _ _ _ _ _ _ _ _ R)|].
  cbn [run] in R. rewrite Ef in R. eauto.
Qed.

Lemma relabel_zero_one raw : Forall (fun v => v = -1 \/ v = 0 \/ v = 1)%Z raw -> zero_one raw (relabel raw).
Proof.
  unfold zero_one, relabel. intros H.
  induction H as [|v l Hv H IH]; cbn; constructor; auto.
  destruct Hv as [->|[->| ->]]; cbn; split; intros; lia.
Qed.
End ENDS.

(** Whatever was on disk and whatever was downloaded, a successful call returns
    the 0/1 version of the labels in the target file it leaves on disk. *)
Lemma main_C71_url_labels :
  forall (V : Type) (F : formats V) net dir md5_check fuel w w' m y,
    run net (load_url F fuel md5_check dir) w = (w', Ok (m, y)) ->
    exists ct raw, w_files w' (dir ++ ["url_combined.target.npy"%string]) = Some ct /\ f_npi F ct = Ok raw /\
      (Forall (fun v => v = -1 \/ v = 0 \/ v = 1)%Z raw -> zero_one raw y).
Proof.
  intros V F net dir md5_check fuel w w' m y R. apply url_ends in R. destruct R as (w2 & R).
  apply tail_labels in R. destruct R as (ct & raw & H1 & H2 & ->).
  exists ct, raw. auto using relabel_zero_one.
Qed.

Lemma main_C71_kdd12_labels :
  forall (V : Type) (F : formats V) net dir md5_check fuel w w' m y,
    run net (load_kdd12 F fuel md5_check dir) w = (w', Ok (m, y)) ->
    exists f ct raw, In f ["kdd12.target.npy"; "url_combined.target.npy"]%string /\
      w_files w' (dir ++ [f]) = Some ct /\ f_npi F ct = Ok raw /\
      (Forall (fun v => v = -1 \/ v = 0 \/ v = 1)%Z raw -> zero_one raw y).
Proof.
  intros V F net dir md5_check fuel w w' m y R. destruct fuel as [|fuel]; [discriminate|].
  assert (K : forall w2, run net (kdd12_tail F dir) w2 = (w', Ok (m, y)) ->
    exists f ct raw, In f ["kdd12.target.npy"; "url_combined.target.npy"]%string /\
      w_files w' (dir ++ [f]) = Some ct /\ f_npi F ct = Ok raw /\
      (Forall (fun v => v = -1 \/ v = 0 \/ v = 1)%Z raw -> zero_one raw y)).
  { intros w2 R2. apply tail_labels in R2. destruct R2 as (ct & raw & H1 & H2 & ->).
    exists "kdd12.target.npy"%string, ct, raw. split; [now left|]. auto using relabel_zero_one. }
  rewrite load_kdd12_eq in R.
  edestruct (fun k => ensure_run (A:=csr V * list Z) net dir k w) as (w1 & R1 & _).
  rewrite R1 in R. cbn [run] in R.
  destruct (w_files w1 (dir ++ ["kdd12.bz2"%string])); [eauto|].
  apply urlretrieve_ends in R. destruct R as (w2 & R).
  destruct md5_check; [|apply unpack_ends in R; destruct R as (w3 & R); eauto].
  cbn [run] in R. destruct (w_files w2 (dir ++ ["kdd12.bz2"%string])) eqn:Ef; [|discriminate].
  destruct (String.eqb (f_md5 F b) kdd12_md5); [apply unpack_ends in R; destruct R as (w3 & R); eauto|].
  cbn [run] in R. rewrite Ef in R.
  apply main_C71_url_labels in R. destruct R as (ct & raw & H1 & H2 & H3).
  exists "url_combined.target.npy"%string, ct, raw. split; [right; now left|auto].
Qed.

(** * load_criteo *)
Definition criteo_file := "criteo.kaggle2014.svm.tar.gz"%string.
Definition criteo_svm := "criteo.kaggle2014.train.svm"%string.

(** After any number of bad but readable archives, the call returns the rows and
    labels of the genuine one, and later calls return the same from disk. *)
Lemma main_C71_criteo_partial :
  forall (V : Type) (F : formats V) net dir c ms t rows y n,
    npy_roundtrip F -> f_md5 F c = criteo_md5 -> f_untar F c = Ok ms -> criteo_tidy ms ->
    In ([criteo_svm], Some t) ms -> svm_holds F t rows y n ->
    forall j fuel w, (j < fuel)%nat -> w_files w (dir ++ [criteo_file]) = None ->
    net (w_count w + j)%nat criteo_url = Ok c ->
    (forall i, (i < j)%nat -> exists b ms', net (w_count w + i)%nat criteo_url = Ok b /\
       f_md5 F b <> criteo_md5 /\ f_untar F b = Ok ms' /\ criteo_tidy ms') ->
    exists w' r, run net (load_criteo F fuel true dir) w = (w', r) /\ returns r rows y n /\
      forall net' fuel' md5_check', (0 < fuel')%nat ->
        run net' (load_criteo F fuel' md5_check' dir) w' = (w', r).
Proof.
  intros V F net dir c ms t rows y n RT Hmd Hms Htidy Hin Hsvm.
  destruct (holds_csr F rows t y n Hsvm) as (d & ix & ip & m & Es & Em & Mm).
  (* what one download does *)
  assert (Step : forall b ms' w (k : prog (csr V * list Z)), w_files w (dir ++ [criteo_file]) = None ->
    net (w_count w) criteo_url = Ok b -> f_untar F b = Ok ms' -> criteo_tidy ms' ->
    exists w2, run net (ensure_dir dir (FileExists (dir ++ [criteo_file]) (fun ex =>
        if ex then load_arrays F (dir ++ ["criteo.kaggle2014.data.npz.npy"%string])
             (dir ++ ["criteo.kaggle2014.indices.npy"%string]) (dir ++ ["criteo.kaggle2014.indptr.npy"%string])
             (dir ++ ["criteo.kaggle2014.target.npy"%string])
        else urlretrieve criteo_url (dir ++ [criteo_file])
            (ReadFile (dir ++ [criteo_file]) (fun tgz =>
             pbind (plift (f_untar F tgz)) (fun ms0 => extract block dir ms0 k)))))) w = run net k w2 /\
      w_files w2 (dir ++ [criteo_file]) = Some b /\
      (forall p c', In (p, Some c') ms' -> w_files w2 (dir ++ p) = Some c') /\
      w_dirs w2 dir = true /\ w_count w2 = S (w_count w)).
  { intros b ms' w k Hw Hn Hu (ND & Tp).
    edestruct (fun k => ensure_run (A:=csr V * list Z) net dir k w) as (w1 & R1 & D1 & F1 & C1 & _).
    rewrite R1. cbn [run]. rewrite F1, Hw.
    edestruct (fun k => retrieve_run (A:=csr V * list Z) net criteo_url dir criteo_file k w1 b D1) as (w2 & R2 & P2 & Q2 & D2 & C2);
      [now rewrite C1|].
    rewrite R2. cbn [run]. rewrite P2, run_pbind, run_plift, Hu.
    destruct (extract_run net block dir k block_pos ms' w2 ND) as (w3 & R3 & P3 & Q3 & D3 & C3).
    { intros p c' Hp. destruct (Tp p c' Hp) as (f & -> & _). rewrite parent_snoc, D2. exact D1. }
    exists w3. split; [exact R3|]. repeat split.
    - rewrite Q3; [exact P2|]. intros p c' Hp. destruct (Tp p c' Hp) as (f & -> & Hf).
      apply snoc_neq. unfold criteo_file. congruence.
    - exact P3.
    - now rewrite D3, D2.
    - now rewrite C3, C2, C1. }
  induction j as [|j IH]; intros fuel w Hf Hw Hc Hbad; destruct fuel as [|fuel]; try lia; cbn [load_criteo].
  - rewrite Nat.add_0_r in Hc.
    edestruct (fun k => Step c ms w k Hw Hc Hms Htidy) as (w2 & R2 & P2 & X2 & D2 & C2).
    unfold criteo_file in *. rewrite R2. cbn [run]. rewrite P2, Hmd, String.eqb_refl.
    cbn [run]. assert (Xt := X2 [criteo_svm] t Hin). unfold criteo_svm in Xt. rewrite Xt.
    rewrite run_pbind, run_plift, Es, run_pbind, run_plift, Em.
    edestruct (fun k => save_run F (A:=csr V * list Z) net dir "criteo.kaggle2014.data.npz.npy"
       "criteo.kaggle2014.indices.npy" "criteo.kaggle2014.indptr.npy" "criteo.kaggle2014.target.npy" d ix ip y k w2 D2)
      as (w3 & R3 & S1 & S2 & S3 & S4 & S5 & S6 & S7).
    { repeat constructor; cbn [In]; intuition discriminate. }
    rewrite R3. exists w3, (Ok (m, y)). split; [reflexivity|]. split; [exists m; auto|].
    intros net' fuel' md5' Hf'. destruct fuel' as [|fuel']; [lia|]. cbn [load_criteo].
    edestruct (fun k => ensure_run (A:=csr V * list Z) net' dir k w3) as (w4 & R4 & _ & _ & _ & E4).
    rewrite R4, E4; [|now rewrite S6]. cbn [run]. rewrite S5, P2; [|cbn [In]; intuition discriminate].
    destruct RT as (RV & RI).
    rewrite (arrays_run F net' w3 dir _ _ _ _ d ix ip y _ _ _ _ S1 (RV d) S2 (RI ix) S3 (RI ip) S4 (RI y)), Em.
    reflexivity.
  - destruct (Hbad 0%nat ltac:(lia)) as (b & ms' & Hb & Hbm & Hu & Hti). rewrite Nat.add_0_r in Hb.
    edestruct (fun k => Step b ms' w k Hw Hb Hu Hti) as (w2 & R2 & P2 & X2 & D2 & C2).
    unfold criteo_file in *. rewrite R2. cbn [run]. rewrite P2, (proj2 (String.eqb_neq _ _) Hbm).
    cbn [run]. rewrite P2.
    apply IH; [lia|cbn; now rewrite path_eqb_refl| |].
    + cbn [put w_count]. rewrite C2, <- Hc. f_equal. lia.
    + cbn [put w_count]. rewrite C2. intros i Hi.
      destruct (Hbad (S i) ltac:(lia)) as (b' & ms'' & E & N). exists b', ms''.
      split; [rewrite <- E; f_equal; lia|exact N].
Qed.

(** A download cut short makes the unpacking raise before the digest is looked at,
    so there is no second download; and as the broken archive stays on disk, every
    later call skips the download and raises too. *)
Lemma main_C71_criteo_refuted :
  forall (V : Type) (F : formats V) net dir b e,
    f_untar F b = Err e ->
    forall fuel w, (0 < fuel)%nat -> w_files w (dir ++ [criteo_file]) = None ->
    w_files w (dir ++ ["criteo.kaggle2014.data.npz.npy"%string]) = None ->
    net (w_count w) criteo_url = Ok b ->
    exists w', run net (load_criteo F fuel true dir) w = (w', Err e) /\
      forall net' fuel' md5_check', (0 < fuel')%nat ->
        run net' (load_criteo F fuel' md5_check' dir) w' = (w', Err FileNotFoundError).
Proof.
  intros V F net dir b e Hu fuel w Hf Hw Hd Hn. destruct fuel as [|fuel]; [lia|]. cbn [load_criteo].
  edestruct (fun k => ensure_run (A:=csr V * list Z) net dir k w) as (w1 & R1 & D1 & F1 & C1 & _).
  unfold criteo_file in *. rewrite R1. cbn [run]. rewrite F1, Hw.
  edestruct (fun k => retrieve_run (A:=csr V * list Z) net criteo_url dir "criteo.kaggle2014.svm.tar.gz" k w1 b D1) as (w2 & R2 & P2 & Q2 & D2 & C2);
    [now rewrite C1|].
  rewrite R2. cbn [run]. rewrite P2, run_pbind, run_plift, Hu. exists w2. split; [reflexivity|].
  intros net' fuel' md5' Hf'. destruct fuel' as [|fuel']; [lia|]. cbn [load_criteo].
  edestruct (fun k => ensure_run (A:=csr V * list Z) net' dir k w2) as (w4 & R4 & _ & _ & _ & E4).
  rewrite R4, E4; [|now rewrite D2]. cbn [run]. rewrite P2.
  unfold load_arrays, load_v. rewrite run_pbind. cbn [run].
  rewrite Q2, F1, Hd; [reflexivity|apply snoc_neq; discriminate].
Qed.

(** * Interrupted downloads (C70) *)
Lemma url_stuck {V : Type} (F : formats V) w dir c :
    w_dirs w dir = true -> w_files w (dir ++ ["url_combined.bz2"%string]) = Some c ->
    w_files w (dir ++ ["url_combined.data.npy"%string]) = None ->
    forall net fuel md5_check, (0 < fuel)%nat ->
      run net (load_url F fuel md5_check dir) w = (w, Err FileNotFoundError).
Proof.
  intros Hd Hc Hn net fuel md5' Hf. destruct fuel as [|fuel]; [lia|].
  rewrite (url_cached F net w dir fuel md5' c Hd Hc).
  unfold url_tail, tail_of, load_arrays, load_v. rewrite run_pbind, run_pbind. cbn [run].
  rewrite Hn. reflexivity.
Qed.

(** load_url killed at any point between creating the local file and saving the
    arrays leaves a disk on which every later call fails; the fourth operation is
    such a point. *)
Lemma main_C70_url_refuted :
  forall (V : Type) (F : formats V) net w dir c fuel md5_check,
    (0 < fuel)%nat -> w_dirs w dir = true ->
    w_files w (dir ++ ["url_combined.bz2"%string]) = None ->
    w_files w (dir ++ ["url_combined.data.npy"%string]) = None ->
    net (w_count w) url_url = Ok c ->
    (let w1 := crash net 4 (load_url F fuel md5_check dir) w in
     w_files w1 (dir ++ ["url_combined.bz2"%string]) = Some [] /\
     w_files w1 (dir ++ ["url_combined.data.npy"%string]) = None) /\
    forall k b, let w1 := crash net k (load_url F fuel md5_check dir) w in
      w_files w1 (dir ++ ["url_combined.bz2"%string]) = Some b ->
      w_files w1 (dir ++ ["url_combined.data.npy"%string]) = None ->
      forall net' fuel' md5', (0 < fuel')%nat ->
        run net' (load_url F fuel' md5' dir) w1 = (w1, Err FileNotFoundError).
Proof.
  intros V F net w dir c fuel md5_check Hf Hd Hb Hn Hc. split.
  - destruct fuel as [|fuel]; [lia|]. rewrite load_url_eq. unfold ensure_dir.
    cbn [crash step]. rewrite Hd. cbn [crash step]. rewrite Hb.
    unfold urlretrieve. cbn [crash step]. rewrite Hc. unfold write_file. cbn [crash step].
    assert (Hp : w_dirs (tick w) (parent (dir ++ ["url_combined.bz2"%string])) = true) by (rewrite parent_snoc; exact Hd).
    rewrite Hp. cbn [put w_files tick]. rewrite path_eqb_refl. split; [reflexivity|].
    rewrite path_eqb_neq; [exact Hn|apply snoc_neq; discriminate].
  - intros k b w1 H1 H2. apply (url_stuck F w1 dir b); auto.
    unfold w1. now apply crash_dirs.
Qed.

(** load_kdd10 killed anywhere: the next call returns the dataset. *)
Lemma main_C70_kdd10_recover :
  forall (V : Type) (F : formats V) net net0 w dir k fuel0 md5_0 c rows y n fuel,
    (forall b, f_md5 F b = kdd10_md5 -> bz_holds F kdd10_md5 b rows y n) ->
    let w1 := crash net0 k (load_kdd10 F fuel0 md5_0 dir) w in
    net (w_count w1) kdd10_url = Ok c -> f_md5 F c = kdd10_md5 -> (1 < fuel)%nat ->
    exists w' r, run net (load_kdd10 F fuel true dir) w1 = (w', r) /\ returns r rows y n.
Proof.
  intros V F net net0 w dir k fuel0 md5_0 c rows y n fuel G w1 Hc Hmd Hf.
  destruct (w_files w1 (dir ++ ["kddb.bz2"%string])) as [b|] eqn:Ef.
  - destruct (string_dec (f_md5 F b) kdd10_md5) as [E|E].
    + destruct (G b E) as (_ & t & Ht & Hsvm).
      destruct (holds_csr F rows t y n Hsvm) as (d & ix & ip & m & Es & Em & Mm).
      destruct fuel as [|fuel]; [lia|]. cbn [load_kdd10].
      edestruct (fun k => ensure_run (A:=csr V * list Z) net dir k w1) as (w2 & R1 & D1 & F1 & C1 & _).
      rewrite R1. cbn [run]. rewrite F1, Ef. cbn [run]. rewrite F1, Ef, E, String.eqb_refl.
      cbn [run]. rewrite F1, Ef, run_pbind, run_plift, Ht, run_pbind, run_plift, Es, run_pbind, run_plift, Em.
      exists w2, (Ok (m, y)). split; [reflexivity|]. exists m. auto.
    + apply (main_C71_kdd10 V F net dir c rows y n (G c Hmd) 0 fuel w1); auto.
      * split; [now rewrite Nat.add_0_r|intros i Hi; lia].
      * intros b' Eb. congruence.
  - apply (main_C71_kdd10 V F net dir c rows y n (G c Hmd) 0 fuel w1); auto.
    + split; [now rewrite Nat.add_0_r|intros i Hi; lia].
    + intros b' Eb. congruence.
Qed.
