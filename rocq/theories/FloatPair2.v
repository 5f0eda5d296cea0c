(** * Pairwise Frank-Wolfe in binary64: the active set and the oracle *)
From Coq Require Import ZArith Lia Bool List.
From Coq Require Import Floats.SpecFloat.
From Verif Require Import Num Vec RVec ModelConstraint ModelFrankWolfe FloatBase FloatPair.
Import ListNotations.

Notation fkey := (rep F64).
Notation fdict := (active F64).

(** ** Keys *)
Definition good (n : nat) (k : fkey) : Prop :=
  (fst k = n1 \/ fst k = nopp F64 n1 \/ fst k = n0) /\ (snd k < n)%nat.
Lemma rep_eqb_spec n (a b : fkey) : good n a -> good n b -> (rep_eqb a b = true <-> a = b).
Proof.
  intros [Ha _] [Hb _]. destruct a as [a i], b as [b j]. cbn [fst snd] in *. unfold rep_eqb. cbn [fst snd].
  rewrite andb_true_iff, Nat.eqb_eq.
  split; [|intros E; injection E as -> ->; split; [|reflexivity]; destruct Hb as [->|[->| ->]]; reflexivity].
  intros [E ->]. f_equal.
  destruct Ha as [->|[->| ->]], Hb as [->|[->| ->]]; try reflexivity; vm_compute in E; discriminate E.
Qed.
Lemma rep_eqb_refl n (a : fkey) : good n a -> rep_eqb a a = true.
Proof. intros H. apply (rep_eqb_spec n); auto. Qed.
Lemma nsign_key (x : F64) : nisnan x = false -> nsign x = n1 \/ nsign x = nopp F64 n1 \/ nsign x = n0.
Proof. destruct x as [[]|[]| |[] m e]; intros H; try (now auto); vm_compute in H; discriminate H. Qed.

(** ** Dictionaries *)
Definition item (n : nat) (kv : fkey * F64) : Prop := good n (fst kv) /\ datum (snd kv) /\ nn (snd kv).
Definition okd (n : nat) (d : fdict) : Prop := NoDup (map fst d) /\ Forall (item n) d.

Lemma dfind_item n d k w : okd n d -> dfind d k = Some w -> datum w /\ nn w.
Proof.
  intros [_ H]. induction d as [|[k' v] d IH]; cbn [dfind]; [discriminate|].
  destruct (rep_eqb k k'); [intros E; injection E as <-; exact (proj2 (Forall_inv H))|]. apply IH. exact (Forall_inv_tail H).
Qed.
Lemma dfind_in n d k w : okd n d -> In (k, w) d -> dfind d k = Some w.
Proof.
  intros [Hn H]. induction d as [|[k' v] d IH]; intros Hi; [destruct Hi|]. cbn [dfind].
  pose proof (proj1 (Forall_inv H)) as G'. cbn [fst] in G'.
  destruct Hi as [E|Hi]. { injection E as -> ->. rewrite (rep_eqb_refl n); auto. }
  destruct (rep_eqb k k') eqn:E.
  - exfalso. inversion Hn; subst. apply H2.
    assert (Hk : good n k). { exact (proj1 (proj1 (Forall_forall _ _) (Forall_inv_tail H) _ Hi)). }
    apply (rep_eqb_spec n) in E; auto. subst k'. apply (in_map fst) in Hi. exact Hi.
  - apply IH; [inversion Hn; auto|exact (Forall_inv_tail H)|exact Hi].
Qed.
Lemma dset_keys n d k v x : good n k -> Forall (item n) d -> In x (map fst (dset d k v)) -> x = k \/ In x (map fst d).
Proof.
  intros Hk H. induction d as [|[k' v'] d IH]; cbn [dset map fst]; [intros [<-|[]]; auto|].
  destruct (rep_eqb k k'); cbn [map fst In].
  - tauto.
  - intros [E|E]; [auto|]. destruct (IH (Forall_inv_tail H) E); auto.
Qed.
Lemma dset_ok n d k v : okd n d -> good n k -> datum v -> nn v -> okd n (dset d k v).
Proof.
  intros [Hn H] Hk Hd Hv. induction d as [|[k' v'] d IH]; cbn [dset].
  - split; [constructor; [intros []|constructor]|constructor; [repeat split; auto; apply Hk|constructor]].
  - pose proof (Forall_inv H) as G'. pose proof (Forall_inv_tail H) as G.
    destruct (rep_eqb k k') eqn:E.
    + split; [exact Hn|]. constructor; [|exact G]. split; [exact (proj1 G')|split; assumption].
    + inversion Hn as [|? ? Hni Hnd]; subst. destruct (IH Hnd G) as [A B]. split; [|constructor; assumption].
      cbn [map fst]. constructor; [|exact A]. intros Hi. destruct (dset_keys n d k v k' Hk G Hi) as [->|Hi2]; [|auto].
      rewrite (rep_eqb_refl n) in E; [discriminate E|exact Hk].
Qed.
Lemma dset_find n d k v k2 : okd n d -> good n k -> good n k2 ->
  dfind (dset d k v) k2 = if rep_eqb k2 k then Some v else dfind d k2.
Proof.
  intros [_ H] Hk Hk2. induction d as [|[k' v'] d IH]; cbn [dset dfind]; [reflexivity|].
  pose proof (proj1 (Forall_inv H)) as G'. cbn [fst] in G'. specialize (IH (Forall_inv_tail H)).
  destruct (rep_eqb k k') eqn:E; cbn [dfind].
  - apply (rep_eqb_spec n) in E; auto. subst k'. destruct (rep_eqb k2 k); reflexivity.
  - destruct (rep_eqb k2 k') eqn:E2; [|exact IH]. apply (rep_eqb_spec n) in E2; auto. subst k'.
    destruct (rep_eqb k2 k) eqn:E3; [|reflexivity]. apply (rep_eqb_spec n) in E3; auto. subst k2.
    rewrite (rep_eqb_refl n) in E; [discriminate E|exact Hk].
Qed.
Lemma dset_nonempty (d : fdict) k v : dset d k v <> [].
Proof. destruct d as [|[k' v'] d]; cbn [dset]; [discriminate|]. destruct (rep_eqb k k'); discriminate. Qed.
Lemma ddel_in (d : fdict) k x : In x (ddel d k) -> In x d.
Proof.
  induction d as [|[k' v'] d IH]; cbn [ddel]; [auto|]. destruct (rep_eqb k k'); cbn [In]; [auto|]. intros [E|E]; auto.
Qed.
Lemma ddel_ok n d k : okd n d -> okd n (ddel d k).
Proof.
  intros [Hn H]. split.
  - induction d as [|[k' v'] d IH]; cbn [ddel]; [exact Hn|]. cbn [map fst] in Hn. inversion Hn as [|? ? Hni Hnd]; subst.
    destruct (rep_eqb k k'); [exact Hnd|]. cbn [map fst]. constructor; [|apply IH; [exact Hnd|exact (Forall_inv_tail H)]].
    intros Hi. apply Hni. apply in_map_iff in Hi. destruct Hi as (y & <- & Hy). apply in_map. exact (ddel_in _ _ _ Hy).
  - apply Forall_forall. intros y Hy. exact (proj1 (Forall_forall _ _) H y (ddel_in _ _ _ Hy)).
Qed.
Lemma ddel_none n d k : okd n d -> good n k -> dfind (ddel d k) k = None.
Proof.
  intros [Hn H] Hk. induction d as [|[k' v'] d IH]; cbn [ddel]; [reflexivity|]. cbn [map fst] in Hn.
  inversion Hn as [|? ? Hni Hnd]; subst. pose proof (proj1 (Forall_inv H)) as G'. cbn [fst] in G'.
  destruct (rep_eqb k k') eqn:E.
  - apply (rep_eqb_spec n) in E; auto. subst k'. destruct (dfind d k) eqn:Ef; [|reflexivity]. exfalso. apply Hni.
    clear -Ef H Hk. pose proof (Forall_inv_tail H) as G. clear H. induction d as [|[k2 v2] d IH]; cbn [dfind] in Ef; [discriminate Ef|].
    cbn [map fst]. destruct (rep_eqb k k2) eqn:E; [|right; apply IH; [exact Ef|exact (Forall_inv_tail G)]].
    left. symmetry. apply (rep_eqb_spec n); auto. exact (proj1 (Forall_inv G)).
  - cbn [dfind]. rewrite E. apply IH; [exact Hnd|exact (Forall_inv_tail H)].
Qed.

(** [d[k]] keeps the invariant *)
Lemma dget_ok n d k : okd n d -> good n k ->
  exists v d', dget d k = (v, d') /\ okd n d' /\ datum v /\ nn v /\ dfind d' k = Some v /\
    (forall k2 w, good n k2 -> dfind d k2 = Some w -> dfind d' k2 = Some w) /\ (forall w, dfind d k = Some w -> v = w /\ d' = d).
Proof.
  intros H Hk. unfold dget. destruct (dfind d k) as [v|] eqn:E.
  - exists v, d. destruct (dfind_item n d k v H E). repeat split; auto; try apply H. congruence.
  - exists (@n0 F64), (dset d k n0). split; [reflexivity|]. split; [apply dset_ok; auto; [exact datum_0|exact I]|].
    split; [exact datum_0|]. split; [exact I|]. split; [rewrite (dset_find n); auto; rewrite (rep_eqb_refl n); auto|].
    split; [|discriminate]. intros k2 w Hk2 Ew. rewrite (dset_find n); auto. destruct (rep_eqb k2 k) eqn:E2; [|exact Ew].
    apply (rep_eqb_spec n) in E2; auto. subst k2. congruence.
Qed.

(** lines 97-112 of copt/frank_wolfe.py: when the step does not exceed the weight of the away
    vertex, in the comparison of binary64, nothing is raised. *)
Lemma update_ok n d fw aw w s : okd n d -> good n fw -> good n aw -> dfind d aw = Some w ->
  datum s -> nn s -> nltb F64 w s = false ->
  exists d', update_active_set d fw aw s = Ok d' /\ okd n d' /\ d' <> [].
Proof.
  intros H Hf Ha Ew Hs Hns Hle. unfold update_active_set.
  destruct (dget_ok n d aw H Ha) as (v1 & d1 & E1 & _ & _ & _ & _ & _ & U1). rewrite E1. destruct (U1 w Ew) as [-> ->]. clear E1 U1.
  destruct (dget_ok n d fw H Hf) as (vf & d2 & E2 & O2 & Dv & Nv & F2 & K2 & U2). rewrite E2.
  assert (O3 : okd n (dset d2 fw (nadd F64 vf s))). { apply dset_ok; auto; [apply add_datum; auto|apply nn_add; auto]. }
  destruct (dget_ok n _ aw O3 Ha) as (va & d4 & E4 & O4 & Da & Na & F4 & _ & U4). rewrite E4.
  assert (Hva : nn (nsub F64 va s)).
  { assert (X : dfind (dset d2 fw (nadd F64 vf s)) aw = if rep_eqb aw fw then Some (nadd F64 vf s) else dfind d2 aw) by (apply (dset_find n); auto).
    destruct (rep_eqb aw fw) eqn:Eq.
    - destruct (U4 _ X) as [-> _]. apply nn_add_sub; auto.
    - rewrite (K2 aw w Ha Ew) in X. destruct (U4 _ X) as [-> _]. destruct (dfind_item n d aw w H Ew). apply nn_sub; auto. }
  assert (O5 : okd n (dset d4 aw (nsub F64 va s))). { apply dset_ok; auto. apply sub_datum; auto. }
  destruct (dget_ok n _ aw O5 Ha) as (v6 & d6 & E6 & O6 & _ & N6 & F6 & _ & U6). rewrite E6.
  set (d7 := if neqb F64 v6 n0 then ddel d6 aw else d6).
  assert (O7 : okd n d7). { unfold d7. destruct (neqb F64 v6 n0); [apply ddel_ok|]; auto. }
  destruct (dget_ok n d7 aw O7 Ha) as (v8 & d8 & E8 & O8 & _ & N8 & F8 & _ & _). rewrite E8.
  rewrite (nn_ltb v8 N8). exists d8. split; [reflexivity|]. split; [exact O8|]. intros Z. rewrite Z in F8. discriminate F8.
Qed.

(** ** The oracle *)
Lemma argmax_from_lt (v : vec F64) : forall best bi i N, (bi < N)%nat -> (i + length v <= N)%nat -> (argmax_from best bi i v < N)%nat.
Proof.
  induction v as [|x v IH]; intros best bi i N Hb Hi; cbn [argmax_from]; [exact Hb|]. cbn [length] in Hi.
  destruct (argmax_better x best); apply IH; lia.
Qed.
Lemma argmax_lt (v : vec F64) : (0 < length v)%nat -> exists i, argmax v = Ok i /\ (i < length v)%nat.
Proof.
  destruct v as [|x v]; intros H; [cbn in H; lia|]. eexists. split; [reflexivity|]. apply argmax_from_lt; cbn [length]; lia.
Qed.
Lemma nth_datum (v : vec F64) i : Forall datum v -> datum (nth i v n0).
Proof.
  intros H. destruct (Nat.lt_ge_cases i (length v)) as [Hi|Hi].
  - exact (proj1 (Forall_forall _ _) H _ (nth_In _ _ Hi)).
  - rewrite nth_overflow by lia. exact datum_0.
Qed.
Lemma upd_datum (v : vec F64) i x : Forall datum v -> datum x -> Forall datum (upd v i x).
Proof.
  revert i. induction v as [|a v IH]; intros [|i] Hv Hx; cbn [upd]; try constructor; try assumption;
    try exact (Forall_inv Hv); try exact (Forall_inv_tail Hv). apply IH; [exact (Forall_inv_tail Hv)|exact Hx].
Qed.
Lemma min_from_total n (u : vec F64) : length u = n -> forall (l : fdict) best bkey, Forall (item n) l ->
  exists it, min_item_from u best bkey l = Ok it /\ (it = best \/ In it l).
Proof.
  intros Hu. induction l as [|it l IH]; intros best bkey H; cbn [min_item_from]; [eauto|].
  unfold correlation. pose proof (Forall_inv H) as [[_ Hi] _].
  rewrite (get_ok u (snd (fst it)) n0) by lia. cbn [bind].
  destruct (nltb F64 _ bkey).
  - destruct (IH it (nmul F64 (fst (fst it)) (nth (snd (fst it)) u n0)) (Forall_inv_tail H)) as (r & E & Hr).
    exists r. split; [exact E|]. right. destruct Hr as [->|Hr]; cbn; auto.
  - destruct (IH best bkey (Forall_inv_tail H)) as (r & E & Hr). exists r. split; [exact E|]. destruct Hr; cbn; auto.
Qed.
Lemma min_total n (u : vec F64) (l : fdict) : length u = n -> Forall (item n) l -> l <> [] ->
  exists it, min_item u l = Ok it /\ In it l.
Proof.
  intros Hu H Hl. destruct l as [|it l]; [congruence|]. unfold min_item, correlation. pose proof (Forall_inv H) as [[_ Hi] _].
  rewrite (get_ok u (snd (fst it)) n0) by lia. cbn [bind].
  destruct (min_from_total n u Hu l it (nmul F64 (fst (fst it)) (nth (snd (fst it)) u n0)) (Forall_inv_tail H)) as (r & E & Hr).
  exists r. split; [exact E|]. destruct Hr as [->|Hr]; cbn; auto.
Qed.

Definition num (v : vec F64) : Prop := Forall (fun g => datum g /\ nisnan g = false) v.
Lemma num_datum v : num v -> Forall datum v.
Proof. intros H. eapply Forall_impl; [|exact H]. intros a [A _]. exact A. Qed.
Lemma nisnan_opp (x : F64) : nisnan (nopp F64 x) = nisnan x.
Proof. destruct x as [[]|[]| |[] m e]; try reflexivity; unfold nisnan; cbn; rewrite !Z.compare_refl, !Pos.compare_refl; reflexivity. Qed.

Lemma nsign_datum (x : F64) : nisnan x = false -> datum (nsign x).
Proof. intros H. destruct (nsign_key x H) as [->|[->| ->]]; vm_compute; reflexivity. Qed.

Lemma pairwise_total n alpha grad x d : (0 < n)%nat -> length grad = n -> length x = n -> num grad -> Forall datum x -> datum alpha ->
  okd n d -> d <> [] ->
  exists dir fw aw w, l1_lmo_pairwise alpha (vopp grad) x d = Ok (mkLmo dir (Some fw) (Some aw) w) /\
    length dir = n /\ Forall datum dir /\ good n fw /\ good n aw /\ dfind d aw = Some w.
Proof.
  intros Hn Hg Hx Ng Dx Da Hd Hne. unfold l1_lmo_pairwise, l1_lmo.
  assert (Lu : length (vopp grad) = n) by (unfold vopp; rewrite map_length; exact Hg).
  destruct (argmax_lt (vabs (vopp grad))) as (i & Ei & Hi). { unfold vabs. rewrite map_length, Lu. exact Hn. }
  unfold vabs in Hi. rewrite map_length, Lu in Hi. rewrite Ei. cbn [bind].
  rewrite (get_ok (vopp grad) i n0) by lia. cbn [bind].
  assert (Lx : length (vopp x) = n) by (unfold vopp; rewrite map_length; exact Hx).
  rewrite (get_ok (vopp x) i n0) by lia. cbn [bind]. rewrite set_ok by lia. cbn [bind lmo_dir lmo_fw].
  destruct (min_total n (vopp grad) d Lu (proj2 Hd) Hne) as ([aw w] & Em & Hin). rewrite Em. cbn [bind fst snd].
  pose proof (proj1 (Forall_forall _ _) (proj2 Hd) _ Hin) as [Gaw [Dw Nw]]. cbn [fst snd] in *.
  set (ul := nth i (vopp grad) n0).
  assert (Hul : nisnan ul = false).
  { unfold ul, vopp. change (@n0 F64) with (nopp F64 (nopp F64 n0)). rewrite map_nth. rewrite nisnan_opp.
    exact (proj2 (proj1 (Forall_forall _ _) Ng _ (nth_In _ _ ltac:(rewrite Hg; exact Hi)))). }
  set (d1 := upd (vopp x) i (nadd F64 (nth i (vopp x) n0) (nmul F64 alpha (nsign ul)))).
  assert (Ld1 : length d1 = n) by (unfold d1; rewrite upd_length; exact Lx).
  assert (Dd1 : Forall datum d1).
  { apply upd_datum; [apply vopp_datum; exact Dx|]. apply add_datum; [apply nth_datum, vopp_datum, Dx|apply mul_datum; [exact Da|apply nsign_datum; exact Hul]]. }
  assert (Ld2 : length (vadd d1 x) = n) by (unfold vadd; rewrite map2_length; lia).
  assert (Dd2 : Forall datum (vadd d1 x)) by (apply vadd_datum; assumption).
  destruct aw as [sg ia]. destruct Gaw as [Gs Gi]. cbn [fst snd] in Gs, Gi.
  rewrite (get_ok (vadd d1 x) ia n0) by lia. cbn [bind]. rewrite set_ok by lia. cbn [bind].
  do 4 eexists. split; [reflexivity|]. split; [rewrite upd_length; exact Ld2|].
  split. { apply upd_datum; [exact Dd2|]. apply sub_datum; [apply nth_datum; exact Dd2|]. apply mul_datum; [|exact Da].
    destruct Gs as [->|[->| ->]]; vm_compute; reflexivity. }
  split; [split; [cbn [fst]; apply nsign_key; exact Hul|exact Hi]|]. split; [split; assumption|].
  apply (dfind_in n); assumption.
Qed.
