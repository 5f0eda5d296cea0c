(** Running loader programs: sequencing, writing files, unpacking archives. *)
From Coq Require Import String.
From Coq Require Import List ZArith Bool Arith Lia.
From Verif Require Import Vec ModelDatasets SpecDatasets.
Import ListNotations.
Open Scope list_scope.

Lemma path_eqb_refl p : path_eqb p p = true.
Proof. unfold path_eqb. destruct (list_eq_dec string_dec p p); congruence. Qed.
Lemma path_eqb_neq p q : p <> q -> path_eqb p q = false.
Proof. unfold path_eqb. destruct (list_eq_dec string_dec p q); congruence. Qed.
Lemma prefix_refl p : prefix_of p p = true.
Proof. unfold prefix_of. rewrite firstn_all. apply path_eqb_refl. Qed.

Lemma run_pbind {A B} net (p : prog A) (f : A -> prog B) : forall w,
  run net (pbind p f) w =
  match run net p w with
  | (w', Ok a) => run net (f a) w'
  | (w', Err e) => (w', Err e)
  end.
Proof.
  induction p; intros w; cbn; auto.
  - destruct (w_dirs w p && negb b); auto.
  - destruct (net (w_count w) s); auto.
  - destruct (w_dirs w (parent p)); auto.
  - destruct (w_files w p); auto.
  - destruct (w_files w p); auto.
  - destruct (w_files w p); auto.
Qed.

Lemma run_plift {A} net (r : result A) w : run net (plift r) w = (w, r).
Proof. destruct r; reflexivity. Qed.

(** [w'] is [w] with the file [p] holding [c]. *)
Definition written (w w' : world) (p : path) (c : bytes) : Prop :=
  w_files w' p = Some c /\ (forall q, q <> p -> w_files w' q = w_files w q) /\
  (forall q, w_dirs w' q = w_dirs w q) /\ w_count w' = w_count w.

Lemma copy_loop_run {A} net chunk p (k : prog A) : (0 < chunk)%nat ->
  forall fuel c w c0, (List.length c < fuel)%nat -> w_files w p = Some c0 ->
  exists w', run net (copy_loop fuel chunk p c k) w = run net k w' /\ written w w' p (c0 ++ c).
Proof.
  intros Hc. induction fuel as [|n IH]; intros c w c0 Hl Hw; [lia|].
  cbn [copy_loop]. destruct (Nat.eqb_spec (List.length (firstn chunk c)) 0) as [E|E].
  - exists w. split; [reflexivity|].
    assert (c = []). { destruct c; [reflexivity|]. destruct chunk; [lia|]. cbn in E. lia. }
    subst c. rewrite app_nil_r. repeat split; auto.
  - assert (Hcl : (0 < List.length c)%nat). { destruct c; [destruct chunk; cbn in E; lia|cbn; lia]. }
    cbn [run]. rewrite Hw.
    destruct (IH (skipn chunk c) (put p (Some (c0 ++ firstn chunk c)) w) (c0 ++ firstn chunk c))
      as (w' & R & Wp & Wq & Wd & Wc).
    + rewrite skipn_length. lia.
    + cbn. now rewrite path_eqb_refl.
    + exists w'. split; [exact R|]. repeat split.
      * rewrite Wp, <- app_assoc, firstn_skipn. reflexivity.
      * intros q Hq. rewrite (Wq q Hq). cbn. rewrite path_eqb_neq; auto.
      * exact Wd.
      * exact Wc.
Qed.

Lemma write_file_run {A} net chunk p c (k : prog A) w :
  (0 < chunk)%nat -> w_dirs w (parent p) = true ->
  exists w', run net (write_file chunk p c k) w = run net k w' /\ written w w' p c.
Proof.
  intros Hc Hd. unfold write_file. cbn [run]. rewrite Hd.
  destruct (copy_loop_run net chunk p k Hc (S (List.length c)) c (put p (Some []) w) [])
    as (w' & R & Wp & Wq & Wd & Wc); [lia|cbn; now rewrite path_eqb_refl|].
  exists w'. split; [exact R|]. repeat split; auto.
  intros q Hq. rewrite (Wq q Hq). cbn. rewrite path_eqb_neq; auto.
Qed.

Lemma parent_snoc (d : path) f : parent (d ++ [f]) = d.
Proof. apply removelast_last. Qed.

Lemma extract_run {A} net chunk dir (k : prog A) : (0 < chunk)%nat -> forall ms w,
  NoDup (map fst ms) ->
  (forall p c, In (p, Some c) ms -> w_dirs w (parent (dir ++ p)) = true) ->
  exists w', run net (extract chunk dir ms k) w = run net k w' /\
    (forall p c, In (p, Some c) ms -> w_files w' (dir ++ p) = Some c) /\
    (forall q, (forall p c, In (p, Some c) ms -> q <> dir ++ p) -> w_files w' q = w_files w q) /\
    (forall q, w_dirs w' q = w_dirs w q) /\ w_count w' = w_count w.
Proof.
  intros Hc. induction ms as [|[nm o] ms IH]; intros w ND HD.
  - exists w. cbn. repeat split; auto; contradiction.
  - inversion ND as [|x l Hn ND' E]; subst. cbn [fst map] in *.
    destruct o as [c|].
    + cbn [extract].
      destruct (write_file_run net chunk (dir ++ nm) c (extract chunk dir ms k) w Hc)
        as (w1 & R1 & P1 & Q1 & D1 & C1); [apply (HD nm c); now left|].
      destruct (IH w1 ND') as (w' & R & P & Q & D & C).
      { intros p c' Hp. rewrite D1. apply (HD p c'). now right. }
      exists w'. split; [now rewrite R1|]. repeat split.
      * intros p c' [E|Hp].
        -- inversion E; subst p c'. rewrite Q; [exact P1|].
           intros p c' Hp E'. apply app_inv_head in E'. subst p.
           apply Hn. apply in_map_iff. exists (nm, Some c'). auto.
        -- apply P; auto.
      * intros q Hq. rewrite Q; [apply Q1; apply (Hq nm c); now left|].
        intros p c' Hp. apply (Hq p c'). now right.
      * intros q. now rewrite D, D1.
      * now rewrite C, C1.
    + cbn [extract]. destruct (IH w ND') as (w' & R & P & Q & D & C).
      { intros p c Hp. apply (HD p c). now right. }
      exists w'. split; [exact R|]. repeat split; auto.
      * intros p c [E|Hp]; [discriminate|auto].
      * intros q Hq. apply Q. intros p c Hp. apply (Hq p c). now right.
Qed.

(** * CSR matrices *)
Section CSR.
Context {V : Type}.

Lemma starts_hd k (rows : list (row V)) : hd 0%Z (starts k rows) = k.
Proof. destruct rows; reflexivity. Qed.

Lemma starts_nonempty k (rows : list (row V)) : starts k rows <> [].
Proof. destruct rows; discriminate. Qed.

Lemma starts_last (rows : list (row V)) : forall k,
  last (starts k rows) 0%Z = (k + Z.of_nat (List.length (concat rows)))%Z.
Proof.
  induction rows as [|r rs IH]; intros k; cbn [starts concat].
  - cbn. lia.
  - specialize (IH (k + Z.of_nat (List.length r))%Z). rewrite app_length.
    assert (E : last (k :: starts (k + Z.of_nat (List.length r)) rs) 0%Z
                = last (starts (k + Z.of_nat (List.length r)) rs) 0%Z).
    { destruct rs; reflexivity. }
    rewrite E, IH. lia.
Qed.

Lemma starts_length (rows : list (row V)) : forall k, List.length (starts k rows) = S (List.length rows).
Proof. induction rows; intros k; cbn; auto. Qed.

Lemma starts_shift (rows : list (row V)) : forall k j,
  map (Z.add j) (starts k rows) = starts (j + k) rows.
Proof.
  induction rows as [|r rs IH]; intros k j; cbn; [reflexivity|].
  rewrite IH, Z.add_assoc. reflexivity.
Qed.

Lemma starts_app (a b : list (row V)) : forall k,
  starts k (a ++ b) = starts k a ++ tl (starts (k + Z.of_nat (List.length (concat a))) b).
Proof.
  induction a as [|r rs IH]; intros k; cbn [starts app concat].
  - rewrite Z.add_0_r. destruct b; reflexivity.
  - rewrite IH, app_length, Nat2Z.inj_add, Z.add_assoc. reflexivity.
Qed.

Lemma maxZ_spec l : l <> [] -> In (maxZ l) l /\ (forall x, In x l -> (x <= maxZ l)%Z).
Proof.
  intros Hl. unfold maxZ.
  assert (G : forall l' a, (forall x, In x l' -> (x <= fold_right Z.max a l')%Z) /\
              (fold_right Z.max a l' = a \/ In (fold_right Z.max a l') l')).
  { induction l' as [|y l' IH]; intros a; cbn [fold_right].
    - split; [contradiction|now left].
    - destruct (IH a) as [U M]. split.
      + intros x [E|Hx]; [subst; lia|]. specialize (U x Hx). lia.
      + destruct (Z.max_spec y (fold_right Z.max a l')) as [[_ E]|[_ E]]; rewrite E.
        * destruct M as [M|M]; [left; exact M|right; now right].
        * right. now left. }
  destruct (G l (hd 0%Z l)) as [U M]. split; [|exact U].
  destruct M as [M|M]; [|exact M]. rewrite M. destruct l; [congruence|now left].
Qed.

Lemma width_max (rows : list (row V)) n : has_width rows n ->
  map fst (concat rows) <> [] /\ (maxZ (map fst (concat rows)) + 1)%Z = n.
Proof.
  intros (U & c & v & Hin & E).
  assert (Hc : In c (map fst (concat rows))). { apply in_map_iff. exists (c, v). auto. }
  assert (Hne : map fst (concat rows) <> []). { intros Z0. rewrite Z0 in Hc. contradiction. }
  split; [exact Hne|]. destruct (maxZ_spec _ Hne) as [Mi Mu].
  specialize (Mu c Hc). apply in_map_iff in Mi. destruct Mi as ((c' & v') & E' & Hi).
  cbn in E'. specialize (U c' v' Hi). lia.
Qed.

(** The constructor returns the encoded rows. *)
Lemma csr_matrix_ok (rows : list (row V)) d ix ip n :
  encodes rows d ix ip -> has_width rows n ->
  exists m, csr_matrix d ix ip = Ok m /\ is_matrix m rows n.
Proof.
  intros (-> & -> & ->) Hw. destruct (width_max rows n Hw) as [Hne Hm].
  set (m := {| c_data := map snd (concat rows); c_indices := map fst (concat rows);
               c_indptr := starts 0 rows; c_rows := Z.of_nat (List.length rows); c_cols := n |}).
  exists m. split.
  - unfold csr_matrix. destruct (map fst (concat rows)) as [|i0 is0] eqn:Ei; [congruence|].
    rewrite <- Ei. rewrite starts_length. cbn [Nat.eqb].
    rewrite starts_hd. cbn [Z.eqb negb].
    rewrite !map_length, Nat.eqb_refl. cbn [negb].
    rewrite starts_last, Z.add_0_l, Z.ltb_irrefl, Nat2Z.id.
    rewrite <- (map_length snd (concat rows)) at 1. rewrite firstn_all.
    rewrite <- (map_length fst (concat rows)) at 1. rewrite firstn_all.
    rewrite <- Ei in Hm. rewrite Hm. unfold m. rewrite <- Ei.
    replace (Z.of_nat (S (List.length rows)) - 1)%Z with (Z.of_nat (List.length rows)) by lia. reflexivity.
  - unfold is_matrix, encodes. cbn. auto.
Qed.

Lemma vstack_ok (a b : csr V) ra rb n :
  is_matrix a ra n -> is_matrix b rb n ->
  exists m, vstack a b = Ok m /\ is_matrix m (ra ++ rb) n.
Proof.
  intros ((D1 & I1 & P1) & R1 & C1) ((D2 & I2 & P2) & R2 & C2).
  unfold vstack. rewrite C1, C2, Z.eqb_refl. eexists. split; [reflexivity|].
  unfold is_matrix, encodes. cbn. rewrite D1, D2, I1, I2, P1, P2, R1, R2.
  rewrite concat_app, !map_app, app_length, Nat2Z.inj_add.
  repeat split; auto.
  rewrite starts_app, starts_last, Z.add_0_l. f_equal.
  destruct rb as [|r rs]; cbn [starts tl]; [reflexivity|].
  rewrite starts_shift. f_equal.
Qed.

Lemma vstack_bad (a b : csr V) ra rb n n' :
  is_matrix a ra n -> is_matrix b rb n' -> n <> n' -> vstack a b = Err ValueError.
Proof.
  intros (_ & _ & C1) (_ & _ & C2) Hn. unfold vstack. rewrite C1, C2.
  destruct (Z.eqb_spec n n'); congruence.
Qed.

End CSR.
