(** * SvdExists2: leading pairs, deflation, and routines meeting the contracts at every matrix *)
From Coq Require Import Reals List Bool Lra Lia Psatz Classical_Prop.
From Verif Require Import Num Vec Spec RVec ConvexFacts SpecLoss LossFacts PenaltyFacts UtilsMain SpecTrace TraceFacts SvdExists.
Import ListNotations.
Open Scope R_scope.

(** ** the bilinear form of a flat matrix *)
Definition rowsof (m n : nat) (X : list R) : list (list R) := map (fun i => map (fun j => nth (i * n + j) X 0) (seq 0 n)) (seq 0 m).
Lemma rowsof_length m n X : length (rowsof m n X) = m.
Proof. unfold rowsof. rewrite map_length, seq_length. reflexivity. Qed.
Lemma rowsof_rect m n X : rect n (rowsof m n X).
Proof. unfold rect, rowsof. apply Forall_forall. intros r Hr. apply in_map_iff in Hr as (i & <- & _). rewrite map_length, seq_length. reflexivity. Qed.
Lemma form_matvec m n X a b : length X = (m * n)%nat -> length a = m -> length b = n -> dot X (outer a b) = dot a (matvec (rowsof m n X) b).
Proof.
  intros HX Ha Hb. rewrite (outer_dot m n) by assumption. rewrite (dot_seq a _ m) by (try assumption; unfold matvec; rewrite map_length; apply rowsof_length).
  apply Rsum_ext_seq. intros i Hi. unfold matvec. rewrite (nth_indep (map (fun r => dot r b) (rowsof m n X)) 0 (dot [] b)) by (rewrite map_length, rowsof_length; exact Hi).
  rewrite (map_nth (fun r => dot r b)). unfold rowsof. rewrite nth_map_seq by exact Hi.
  rewrite (dot_seq _ b n) by (rewrite ?map_length, ?seq_length; congruence). rewrite <- Rsum_map_mult. apply Rsum_ext_seq. intros j Hj.
  rewrite nth_map_seq by exact Hj. ring.
Qed.
Lemma matvec_lin n A u v s t : rect n A -> length u = n -> length v = n -> matvec A (lin s u t v) = lin s (matvec A u) t (matvec A v).
Proof.
  intros HA Hu Hv. induction A as [|r A IH]; [reflexivity|]. inversion HA as [|? ? Hr HA']; subst. cbn. f_equal; [|apply IH; assumption].
  apply dot_lin_r; congruence.
Qed.
Lemma form_lin_r m n X a u v s t : length X = (m * n)%nat -> length a = m -> length u = n -> length v = n ->
  dot X (outer a (lin s u t v)) = s * dot X (outer a u) + t * dot X (outer a v).
Proof.
  intros HX Ha Hu Hv. rewrite !(form_matvec m n) by (try assumption; leng). rewrite (matvec_lin n) by (try assumption; apply rowsof_rect).
  apply dot_lin_r; unfold matvec; rewrite map_length, rowsof_length; congruence.
Qed.
Lemma form_lin_l m n X b u v s t : length X = (m * n)%nat -> length b = n -> length u = m -> length v = m ->
  dot X (outer (lin s u t v) b) = s * dot X (outer u b) + t * dot X (outer v b).
Proof.
  intros HX Hb Hu Hv. rewrite !(form_matvec m n) by (try assumption; leng).
  apply dot_lin_l; unfold matvec; rewrite map_length, rowsof_length; congruence.
Qed.
Lemma norm2_unit m : (0 < m)%nat -> norm2 (unit_vec m 0) = 1.
Proof.
  intros Hm. unfold norm2. rewrite (dot_seq _ _ m) by apply unit_vec_length. transitivity (sqrt 1); [|apply sqrt_1]. f_equal.
  rewrite <- (single_sum 1 0 m Hm). apply Rsum_ext_seq. intros j Hj. rewrite nth_unit_vec by exact Hj. destruct (Nat.eqb j 0); ring.
Qed.

(** ** a leading pair *)
Lemma top_pair m n X : length X = (m * n)%nat -> (0 < m)%nat -> (0 < n)%nat -> { p | is_top_pair m n X (fst p) (snd p) }.
Proof.
  intros HX Hm Hn. destruct (top_vector n (rowsof m n X) (rowsof_rect m n X) Hn) as (b & Lb & Nb & Hb).
  set (w := matvec (rowsof m n X) b) in *. assert (Lw : length w = m) by (unfold w, matvec; rewrite map_length; apply rowsof_length).
  assert (C : { a | length a = m /\ norm2 a = 1 /\ dot a w = norm2 w }).
  { destruct (Req_EM_T (norm2 w) 0) as [Z|NZ].
    - exists (unit_vec m 0). split; [apply unit_vec_length|split; [apply norm2_unit, Hm|]]. pose proof (cauchy_schwarz (unit_vec m 0) w) as C.
      rewrite Z, Rmult_0_r in *. pose proof (Rle_abs (dot (unit_vec m 0) w)) as C1. pose proof (Rle_abs (- dot (unit_vec m 0) w)) as C2. rewrite Rabs_Ropp in C2. lra.
    - pose proof (norm2_nonneg w) as P. assert (I : 0 < / norm2 w) by (apply Rinv_0_lt_compat; lra).
      exists (smul (/ norm2 w) w). split; [leng|]. split; [rewrite norm2_smul, Rabs_right by lra; field; lra|].
      rewrite dot_smul_l, <- norm2_sq. field. lra. }
  destruct C as (a & La & Na & Ea). exists (a, b). cbn [fst snd].
  split; [exact La|split; [exact Lb|split; [exact Na|split; [exact Nb|]]]]. split; [exact HX|]. intros a' b' La' Lb'.
  rewrite !(form_matvec m n) by assumption. fold w. rewrite Ea.
  eapply Rle_trans; [apply dot_le_norm|]. specialize (Hb b' Lb'). pose proof (norm2_nonneg a').
  replace (norm2 w * (norm2 a' * norm2 b')) with (norm2 a' * (norm2 w * norm2 b')) by ring. apply Rmult_le_compat_l; assumption.
Qed.
Lemma top_right m n X a b : is_top_pair m n X a b -> forall b', length b' = n -> dot X (outer a b') = dot X (outer a b) * dot b b'.
Proof.
  intros (La & Lb & Na & Nb & HX & Hop) b' Lb'. set (sg := dot X (outer a b)) in *.
  set (c := dot b b'). set (d := lin 1 b' (- c) b). assert (Ld : length d = n) by (unfold d; leng).
  assert (Bd : dot b d = 0). { unfold d. rewrite dot_lin_r by leng. fold c. rewrite <- norm2_sq, Nb. ring. }
  assert (S0 : 0 <= sg).
  { specialize (Hop (smul (-1) a) b ltac:(leng) Lb). replace (smul (-1) a) with (lin (-1) a 0 a) in Hop.
    - rewrite (form_lin_l m n) in Hop by assumption. fold sg in Hop. replace (norm2 (lin (-1) a 0 a)) with 1 in Hop.
      + rewrite Nb in Hop. lra.
      + symmetry. rewrite <- Na. unfold norm2. f_equal. rewrite dot_lin_l, !dot_lin_r by leng. ring.
    - apply (list_ext _ _ 0); [leng|]. intros i Hi. rewrite nth_smul, nth_lin by leng. ring. }
  assert (K : forall t, t * dot X (outer a d) <= sg * (t * t * dot d d)).
  { intros t. specialize (Hop a (lin 1 b t d) La ltac:(leng)). rewrite (form_lin_r m n) in Hop by assumption. fold sg in Hop. rewrite Na in Hop.
    assert (N : norm2 (lin 1 b t d) <= 1 + t * t * dot d d).
    { pose proof (dot_self_nonneg d) as D. assert (0 <= t * t * dot d d) by (apply Rmult_le_pos; [apply Rle_0_sqr|exact D]).
      apply norm2_le_sq; [lra|]. rewrite dot_lin_l, !dot_lin_r by leng. rewrite (dot_comm d b), Bd, <- (norm2_sq b), Nb. nra. }
    assert (sg * norm2 (lin 1 b t d) <= sg * (1 + t * t * dot d d)) by (apply Rmult_le_compat_l; assumption). lra. }
  assert (Z : dot X (outer a d) = 0).
  { set (e := dot X (outer a d)) in *. pose proof (dot_self_nonneg d) as D. set (q := sg * dot d d).
    assert (Q : 0 <= q) by (apply Rmult_le_pos; assumption).
    assert (K' : forall t, t * e <= q * (t * t)) by (intros t; specialize (K t); unfold q; lra). clear K.
    pose proof (K' (e / (2 * (q + 1)))) as K. assert (E2 : 0 <= e * e) by apply Rle_0_sqr.
    set (r := / (q + 1)). assert (R0 : 0 < r) by (apply Rinv_0_lt_compat; lra). assert (R1 : r * (q + 1) = 1) by (unfold r; field; lra).
    replace (e / (2 * (q + 1))) with (e * r / 2) in K by (unfold r; field; lra).
    assert (e * r / 2 * e <= e * e * r / 4).
    { eapply Rle_trans; [exact K|]. replace (q * (e * r / 2 * (e * r / 2))) with (e * e * r / 4 * (q * r)) by field.
      assert (q * r <= 1) by nra. assert (0 <= e * e * r / 4) by nra. nra. }
    assert (H0 : e * e * r <= 0) by lra. assert (e * e <= 0) by (apply Rnot_lt_le; intros Hp; assert (0 < e * e * r) by (apply Rmult_lt_0_compat; assumption); lra).
    nra. }
  unfold d in Z. rewrite (form_lin_r m n) in Z by assumption. fold sg in Z. unfold c in Z. fold c in Z. fold c. lra.
Qed.
Lemma top_left m n X a b : is_top_pair m n X a b -> forall a', length a' = m -> dot X (outer a' b) = dot X (outer a b) * dot a a'.
Proof.
  intros (La & Lb & Na & Nb & HX & Hop) a' La'. set (sg := dot X (outer a b)) in *.
  set (w := matvec (rowsof m n X) b). assert (Lw : length w = m) by (unfold w, matvec; rewrite map_length; apply rowsof_length).
  assert (Ew : dot a w = sg) by (unfold sg; rewrite (form_matvec m n) by assumption; reflexivity).
  assert (Wn : norm2 w <= sg).
  { pose proof (Hop w b Lw Lb) as H. rewrite (form_matvec m n) in H by assumption. fold w in H. rewrite <- norm2_sq, Nb in H.
    destruct (Req_EM_T (norm2 w) 0) as [Z|NZ].
    - pose proof (cauchy_schwarz a w) as C. rewrite Z, Rmult_0_r, Ew in C. pose proof (Rle_abs (- sg)) as C2. rewrite Rabs_Ropp in C2. lra.
    - pose proof (norm2_nonneg w). apply (Rmult_le_reg_l (norm2 w)); lra. }
  rewrite (form_matvec m n) by assumption. fold w.
  assert (E : dot (lin 1 w (- sg) a) (lin 1 w (- sg) a) <= 0).
  { rewrite dot_lin_l, !dot_lin_r by leng. rewrite (dot_comm w a), Ew, <- !norm2_sq, Na. pose proof (norm2_nonneg w).
    assert (norm2 w * norm2 w <= sg * sg) by nra. nra. }
  pose proof (cauchy_sq a' (lin 1 w (- sg) a)) as C. pose proof (dot_self_nonneg (lin 1 w (- sg) a)) as P. pose proof (dot_self_nonneg a') as P'.
  assert (E0 : dot (lin 1 w (- sg) a) (lin 1 w (- sg) a) = 0) by lra. rewrite E0, Rmult_0_r in C.
  assert (Z : dot a' (lin 1 w (- sg) a) = 0) by nra. rewrite dot_lin_r in Z by leng. rewrite (dot_comm a a'). lra.
Qed.

(** ** orthonormal families *)
Lemma ortho_snoc n vs b : orthonormal n vs -> length b = n -> dot b b = 1 -> (forall v, In v vs -> dot v b = 0) -> orthonormal n (vs ++ [b]).
Proof.
  intros (F & O) Lb Nb Hb. split; [apply Forall_app; split; [exact F|repeat constructor; exact Lb]|].
  intros i j Hi Hj. rewrite app_length in Hi, Hj. cbn [length] in Hi, Hj.
  destruct (Nat.lt_ge_cases i (length vs)) as [H1|H1]; destruct (Nat.lt_ge_cases j (length vs)) as [H2|H2].
  - rewrite !app_nth1 by assumption. apply O; assumption.
  - assert (j = length vs) by lia. subst j. rewrite (app_nth1 _ _ _ H1), app_nth2, Nat.sub_diag by lia. cbn [nth].
    rewrite (Hb _ (nth_In _ _ H1)). destruct (Nat.eqb_spec i (length vs)); [lia|reflexivity].
  - assert (i = length vs) by lia. subst i. rewrite (app_nth1 _ _ _ H2), app_nth2, Nat.sub_diag by lia. cbn [nth].
    rewrite dot_comm, (Hb _ (nth_In _ _ H2)). destruct (Nat.eqb_spec (length vs) j); [lia|reflexivity].
  - assert (i = length vs) by lia. assert (j = length vs) by lia. subst i j. rewrite app_nth2, Nat.sub_diag by lia. cbn [nth]. rewrite Nat.eqb_refl. exact Nb.
Qed.
Lemma Rsum_swap2 (f : nat -> nat -> R) p q :
  Rsum (map (fun i => Rsum (map (fun j => f i j) (seq 0 q))) (seq 0 p)) = Rsum (map (fun j => Rsum (map (fun i => f i j) (seq 0 p))) (seq 0 q)).
Proof.
  generalize (seq 0 p). intros l. induction l as [|i l IH]; cbn [map Rsum].
  - induction (seq 0 q) as [|? ? IHq]; cbn; [reflexivity|]. rewrite <- IHq. ring.
  - rewrite IH, <- Rsum_map_plus. reflexivity.
Qed.
Lemma ortho_bound n vs : orthonormal n vs -> (length vs <= n)%nat.
Proof.
  intros Ho. apply INR_le.
  assert (E : Rsum (map (fun v => dot v v) vs) = INR (length vs)).
  { clear -Ho. induction vs as [|v vs IH]; [reflexivity|]. destruct (ortho_cons n v vs Ho) as (_ & H1 & _ & Ho').
    change (length (v :: vs)) with (S (length vs)). rewrite S_INR. cbn [map Rsum]. rewrite (IH Ho'), H1. ring. }
  rewrite <- E.
  assert (E2 : Rsum (map (fun v => dot v v) vs) = Rsum (map (fun j => Rsum (map (fun v => dot v (unit_vec n j) * dot v (unit_vec n j)) vs)) (seq 0 n))).
  { destruct Ho as (F & _). clear E. induction F as [|v vs Lv F IH]; cbn [map Rsum].
    - induction (seq 0 n) as [|? ? IHq]; cbn; [reflexivity|]. rewrite <- IHq. ring.
    - rewrite IH, Rsum_map_plus. f_equal. rewrite (dot_seq v v n Lv Lv). apply Rsum_ext_seq. intros j Hj.
      assert (U : dot v (unit_vec n j) = nth j v 0).
      { rewrite (dot_seq v _ n Lv (unit_vec_length n j)). rewrite <- (single_sum (nth j v 0) j n Hj). apply Rsum_ext_seq. intros i Hi.
        rewrite nth_unit_vec by exact Hi. destruct (Nat.eqb_spec i j) as [->|]; [|ring]. ring. }
      rewrite U. reflexivity. }
  rewrite E2. apply Rle_trans with (Rsum (map (fun _ => 1) (seq 0 n))).
  - apply Rsum_le_seq. intros j Hj. eapply Rle_trans; [apply (bessel n vs Ho), unit_vec_length|].
    right. rewrite (dot_seq _ _ n) by apply unit_vec_length. rewrite <- (single_sum 1 j n Hj). apply Rsum_ext_seq. intros i Hi. rewrite nth_unit_vec by exact Hi. destruct (Nat.eqb i j); ring.
  - right. assert (forall l : list nat, Rsum (map (fun _ => 1) l) = INR (length l)) as H.
    { induction l as [|k l IH]; [reflexivity|]. change (length (k :: l)) with (S (length l)). rewrite S_INR. cbn [map Rsum]. rewrite IH. ring. }
    rewrite H, seq_length. reflexivity.
Qed.

(** ** deflation *)
Definition triple := (list R * R * list R)%type.
Definition t_u (t : triple) := fst (fst t).
Definition t_s (t : triple) := snd (fst t).
Definition t_v (t : triple) := snd t.
Definition form_of (ts : list triple) (a b : list R) : R := Rsum (map (fun t => t_s t * dot (t_u t) a * dot (t_v t) b) ts).
Lemma svd_rec m n : (0 < m)%nat -> (0 < n)%nat -> forall d us vs X, length X = (m * n)%nat -> orthonormal m us -> orthonormal n vs -> length us = length vs ->
  (n - length vs <= d)%nat -> (forall u b, In u us -> length b = n -> dot X (outer u b) = 0) -> (forall v a, In v vs -> length a = m -> dot X (outer a v) = 0) ->
  { ts : list triple | orthonormal m (us ++ map t_u ts) /\ orthonormal n (vs ++ map t_v ts) /\ Forall (fun t => 0 <= t_s t) ts /\
    forall a b, length a = m -> length b = n -> dot X (outer a b) = form_of ts a b }.
Proof.
  intros Hm Hn. induction d as [|d IH]; intros us vs X HX Ou Ov El Hd Hu Hv;
    destruct (top_pair m n X HX Hm Hn) as ((a, b) & T); cbn [fst snd] in T; set (sg := dot X (outer a b)) in *;
    (destruct (Req_EM_T sg 0) as [Z|NZ];
     [exists []; cbn [map]; rewrite !app_nil_r; split; [exact Ou|split; [exact Ov|split; [constructor|]]];
      intros a' b' La' Lb'; unfold form_of; cbn [map Rsum]; destruct T as (_ & _ & _ & _ & _ & Hop); fold sg in Hop; rewrite Z in Hop;
      pose proof (Hop a' b' La' Lb') as H1; pose proof (Hop (lin (-1) a' 0 a') b' ltac:(leng) Lb') as H2; rewrite (form_lin_l m n) in H2 by assumption; lra|]).
  all: pose proof (top_left m n X a b T) as TL; pose proof (top_right m n X a b T) as TR; fold sg in TL, TR;
    destruct T as (La & Lb & Na & Nb & _ & Hop); fold sg in Hop;
    assert (Sp : 0 <= sg) by (pose proof (Hop (lin (-1) a 0 a) b ltac:(leng) Lb) as H; rewrite (form_lin_l m n) in H by assumption; fold sg in H;
      replace (norm2 (lin (-1) a 0 a)) with 1 in H by (symmetry; rewrite <- Na; unfold norm2; f_equal; rewrite dot_lin_l, !dot_lin_r by leng; ring); rewrite Nb in H; lra);
    assert (Ou' : orthonormal m (us ++ [a])) by (apply ortho_snoc; [exact Ou|exact La|rewrite <- norm2_sq, Na; ring|];
      intros u Hin; pose proof (Hu u b Hin Lb) as E; rewrite (TL u) in E by (destruct Ou as (F & _); rewrite Forall_forall in F; apply F, Hin);
      rewrite dot_comm; apply (Rmult_eq_reg_l sg); [lra|exact NZ]);
    assert (Ov' : orthonormal n (vs ++ [b])) by (apply ortho_snoc; [exact Ov|exact Lb|rewrite <- norm2_sq, Nb; ring|];
      intros v Hin; pose proof (Hv v a Hin La) as E; rewrite (TR v) in E by (destruct Ov as (F & _); rewrite Forall_forall in F; apply F, Hin);
      rewrite dot_comm; apply (Rmult_eq_reg_l sg); [lra|exact NZ]).
  - exfalso. pose proof (ortho_bound n _ Ov') as B. rewrite app_length in B. cbn in B. lia.
  - set (X' := lin 1 X (- sg) (outer a b)).
    assert (LX' : length X' = (m * n)%nat) by (unfold X'; rewrite lin_length, outer_length, HX, La, Lb; lia).
    assert (EX : forall a' b', length a' = m -> length b' = n -> dot X' (outer a' b') = dot X (outer a' b') - sg * (dot a a' * dot b b')).
    { intros a' b' La' Lb'. unfold X'. rewrite dot_lin_l by (rewrite ?outer_length; congruence). rewrite outer_outer by congruence. ring. }
    destruct (IH (us ++ [a]) (vs ++ [b]) X' LX' Ou' Ov') as (ts & A1 & A2 & A3 & A4).
    + rewrite !app_length. cbn. lia.
    + rewrite app_length. cbn. lia.
    + intros u b' Hin Lb'. apply in_app_or in Hin as [Hin|[<-|[]]].
      * assert (Lu : length u = m) by (destruct Ou as (F & _); rewrite Forall_forall in F; apply F, Hin).
        rewrite EX, (Hu u b' Hin Lb') by assumption. pose proof (Hu u b Hin Lb) as E. rewrite (TL u Lu) in E.
        assert (E0 : dot a u = 0) by (apply (Rmult_eq_reg_l sg); [lra|exact NZ]). rewrite E0. ring.
      * rewrite EX, (TR b' Lb') by assumption. rewrite <- (norm2_sq a), Na. ring.
    + intros v a' Hin La'. apply in_app_or in Hin as [Hin|[<-|[]]].
      * assert (Lv : length v = n) by (destruct Ov as (F & _); rewrite Forall_forall in F; apply F, Hin).
        rewrite EX, (Hv v a' Hin La') by assumption. pose proof (Hv v a Hin La) as E. rewrite (TR v Lv) in E.
        assert (E0 : dot b v = 0) by (apply (Rmult_eq_reg_l sg); [lra|exact NZ]). rewrite E0. ring.
      * rewrite EX, (TL a' La') by assumption. rewrite <- (norm2_sq b), Nb. ring.
    + exists ((a, sg, b) :: ts). cbn [map]. rewrite <- app_assoc in A1, A2. cbn [app] in A1, A2.
      split; [exact A1|split; [exact A2|split; [constructor; [exact Sp|exact A3]|]]].
      intros a' b' La' Lb'. specialize (A4 a' b' La' Lb'). rewrite EX in A4 by assumption. unfold form_of in *. cbn [map Rsum t_s t_u t_v fst snd]. lra.
Qed.

(** ** the routines *)
Definition u_rows (m : nat) (ts : list triple) : list (list R) := map (fun i => map (fun t => nth i (t_u t) 0) ts) (seq 0 m).
Lemma svd_triples m n X : length X = (m * n)%nat -> { ts : list triple | is_svd m n (length ts) X (u_rows m ts) (map t_s ts) (map t_v ts) }.
Proof.
  intros HX.
  assert (D : { ts : list triple | orthonormal m (map t_u ts) /\ orthonormal n (map t_v ts) /\ Forall (fun t => 0 <= t_s t) ts /\
    ((0 < m)%nat -> (0 < n)%nat -> forall a b, length a = m -> length b = n -> dot X (outer a b) = form_of ts a b) }).
  { destruct (Nat.eq_dec m 0) as [->|Hm]; [exists []; repeat split; try constructor; cbn; intros; lia|].
    destruct (Nat.eq_dec n 0) as [->|Hn]; [exists []; repeat split; try constructor; cbn; intros; lia|].
    destruct (svd_rec m n ltac:(lia) ltac:(lia) n [] [] X HX) as (ts & A & B & C & E); cbn; try lia; try tauto;
      try (repeat split; try constructor; cbn; intros; lia).
    exists ts. auto. }
  destruct D as (ts & Ou & Ov & Ps & Ef). exists ts.
  assert (CU : columns (length ts) (u_rows m ts) = map t_u ts).
  { apply (list_ext _ _ []); [rewrite columns_length, map_length; reflexivity|]. rewrite columns_length. intros l Hl. rewrite nth_columns by exact Hl.
    assert (Lu : length (nth l (map t_u ts) []) = m).
    { destruct Ou as (F & _). rewrite Forall_forall in F. apply F, nth_In. rewrite map_length. exact Hl. }
    apply (list_ext _ _ 0); [rewrite column_length; unfold u_rows; rewrite map_length, seq_length; congruence|].
    rewrite column_length. unfold u_rows at 1. rewrite map_length, seq_length. intros i Hi.
    rewrite nth_column by (unfold u_rows; rewrite map_length, seq_length; exact Hi). unfold u_rows. rewrite nth_map_seq by exact Hi.
    rewrite (nth_indep _ 0 (nth i (t_u ([], 0, [])) 0)) by (rewrite map_length; exact Hl). rewrite (map_nth (fun t => nth i (t_u t) 0)).
    rewrite (nth_indep (map t_u ts) [] (t_u ([], 0, []))) by (rewrite map_length; exact Hl). rewrite (map_nth t_u). reflexivity. }
  repeat split; auto; try (rewrite ?map_length; reflexivity).
  - unfold u_rows. rewrite map_length, seq_length. reflexivity.
  - unfold u_rows. apply Forall_forall. intros r Hr. apply in_map_iff in Hr as (i & <- & _). apply map_length.
  - apply Forall_map. exact Ps.
  - rewrite CU. apply Ou.
  - rewrite CU. intros i j Hi Hj. apply Ou; assumption.
  - apply Ov.
  - apply Ov.
  - intros i j Hi Hj. pose proof (Ef ltac:(lia) ltac:(lia) (unit_vec m i) (unit_vec n j) (unit_vec_length m i) (unit_vec_length n j)) as E.
    assert (U : forall N k v, (k < N)%nat -> length v = N -> dot v (unit_vec N k) = nth k v 0).
    { intros N k v Hk Hv. rewrite (dot_seq v _ N Hv (unit_vec_length N k)). rewrite <- (single_sum (nth k v 0) k N Hk). apply Rsum_ext_seq. intros q Hq.
      rewrite nth_unit_vec by exact Hq. destruct (Nat.eqb_spec q k) as [->|]; ring. }
    rewrite (form_matvec m n) in E by (try assumption; apply unit_vec_length). rewrite dot_comm, (U m i) in E by (try exact Hi; unfold matvec; rewrite map_length; apply rowsof_length).
    unfold matvec in E. rewrite (nth_indep _ 0 (dot [] (unit_vec n j))) in E by (rewrite map_length, rowsof_length; exact Hi).
    rewrite (map_nth (fun r => dot r (unit_vec n j))) in E. unfold rowsof in E. rewrite nth_map_seq in E by exact Hi.
    rewrite (U n j) in E by (try exact Hj; rewrite map_length, seq_length; reflexivity). rewrite nth_map_seq in E by exact Hj. rewrite E.
    unfold form_of. assert (G : forall (f : triple -> R) (l : list triple) (d : triple), Rsum (map f l) = Rsum (map (fun q => f (nth q l d)) (seq 0 (length l)))).
    { intros f l d. f_equal. apply (list_ext _ _ 0); [rewrite !map_length, seq_length; reflexivity|]. rewrite map_length. intros q Hq. rewrite nth_map_seq by exact Hq.
      rewrite (nth_indep _ 0 (f d)) by (rewrite map_length; exact Hq). apply map_nth. }
    rewrite (G _ ts ([], 0, [])). apply Rsum_ext_seq. intros l Hl.
    assert (Lt : length (t_u (nth l ts ([], 0, []))) = m /\ length (t_v (nth l ts ([], 0, []))) = n).
    { destruct Ou as (Fu & _). destruct Ov as (Fv & _). rewrite Forall_forall in Fu, Fv. split; [apply Fu|apply Fv]; apply in_map, nth_In; exact Hl. }
    destruct Lt as (Lu & Lv). rewrite (U m i _ Hi Lu), (U n j _ Hj Lv). unfold u_rows. rewrite nth_map_seq by exact Hi.
    rewrite (nth_indep (map (fun t => nth i (t_u t) 0) ts) 0 (nth i (t_u ([], 0, [])) 0)) by (rewrite map_length; exact Hl). rewrite (map_nth (fun t => nth i (t_u t) 0)).
    rewrite (nth_indep (map t_s ts) 0 (t_s ([], 0, []))) by (rewrite map_length; exact Hl). rewrite (map_nth t_s).
    rewrite (nth_indep (map t_v ts) [] (t_v ([], 0, []))) by (rewrite map_length; exact Hl). rewrite (map_nth t_v). ring.
Qed.
Lemma svd_routine m n : exists svd, forall x, length x = (m * n)%nat -> svd_at m n svd x.
Proof.
  exists (fun X => match Nat.eq_dec (length (concat X)) (m * n) with
    | left H => let ts := proj1_sig (svd_triples m n (concat X) H) in (u_rows m ts, map t_s ts, map t_v ts)
    | right _ => ([], [], []) end).
  intros x Hx X (_ & _ & EX). destruct (Nat.eq_dec (length (concat X)) (m * n)) as [H|H]; [|congruence].
  destruct (svd_triples m n (concat X) H) as (ts & T). cbn [proj1_sig fst snd]. exists (length ts). rewrite <- EX. exact T.
Qed.
Lemma svals_routine m n : exists svdvals, forall x, length x = (m * n)%nat -> svals_at m n svdvals x.
Proof.
  destruct (svd_routine m n) as (svd & H). exists (fun X => snd (fst (svd X))). intros x Hx X HX. destruct (H x Hx X HX) as (k & T). exists k. eauto.
Qed.
Lemma svds_routine m n : (0 < m)%nat -> (0 < n)%nat -> exists svds, forall u, length u = (m * n)%nat -> svds_at m n svds u.
Proof.
  intros Hm Hn.
  exists (fun X => match Nat.eq_dec (length (concat X)) (m * n) with left H => proj1_sig (top_pair m n (concat X) H Hm Hn) | right _ => ([], []) end).
  intros u Hu X (_ & _ & EX). destruct (Nat.eq_dec (length (concat X)) (m * n)) as [H|H]; [|congruence].
  destruct (top_pair m n (concat X) H Hm Hn) as (p & T). cbn [proj1_sig]. rewrite <- EX. exact T.
Qed.
Lemma opnorm_exists d A : rect d A -> (0 < d)%nat -> exists s, opnorm d A s.
Proof.
  intros HA Hd. destruct (top_vector d A HA Hd) as (b & Lb & Nb & H). exists (norm2 (matvec A b)). split; [apply norm2_nonneg|]. split; [exact H|].
  exists b. split; [exact Lb|]. split; [|rewrite Nb; ring]. intros ->. assert (E : norm2 (zeros d) = 0).
  { unfold norm2. rewrite dot_zeros_l. apply sqrt_0. }
  rewrite E in Nb. lra.
Qed.

Lemma main_C08_contracts : forall m n,
  (exists svd, forall x, length x = (m * n)%nat -> svd_at m n svd x) /\
  (exists svdvals, forall x, length x = (m * n)%nat -> svals_at m n svdvals x) /\
  ((0 < m)%nat -> (0 < n)%nat -> exists svds, forall u, length u = (m * n)%nat -> svds_at m n svds u).
Proof. intros m n. split; [apply svd_routine|split; [apply svals_routine|apply svds_routine]]. Qed.
Lemma main_C23_opnorm_exists : forall d A, rect d A -> (0 < d)%nat -> exists s, opnorm d A s.
Proof. exact opnorm_exists. Qed.
