(** * Element types and shared arrays (C69, C101, C102, C103) *)
From Coq Require Import ZArith Bool List Lia Reals Lra.
From Verif Require Import Num Vec Spec RVec ConvexFacts PenaltyFacts UtilsMain SplittingRuns ModelUtils ModelProxGrad ModelSplitting ModelRandomized ModelMemory MemoryFacts.
Import ListNotations.
Local Open Scope R_scope.

(** ** C69: the arrays of the caller *)
Lemma main_C69_saga_memory : forall (K : Num) (P : problem K) (h : heap K) (x0 : loc) (step : option K) (prox : option (sprox K)) (ptr : option (list nat)) (max_iter : nat) (tol : K) (perms : nat -> list nat),
  (x0 < length h)%nat ->
  match minimize_saga P (load h x0) step prox ptr max_iter tol perms with
  | Err e => minimize_saga_mem P h x0 step prox ptr max_iter tol perms = Err e
  | Ok r => exists m, minimize_saga_mem P h x0 step prox ptr max_iter tol perms = Ok m /\ load (mr_heap m) (mr_x m) = er_x r /\ mr_success m = er_success r /\ mr_nit m = er_nit r /\
      (length h <= mr_x m)%nat /\ forall l, (l < length h)%nat -> load (mr_heap m) l = load h l
  end.
Proof.
  intros K P h x0 step prox ptr max_iter tol perms Hx0. unfold minimize_saga, minimize_saga_mem. destruct step as [st|]; [|reflexivity].
  destruct (make_blocks P _) as [B|e]; [|reflexivity]. cbn [bind alloc]. set (px := match prox with Some q => q | None => no_prox end).
  set (h1 := h ++ [load h x0]). set (h2 := h1 ++ [vzeros (p_n P)]). set (h3 := h2 ++ [vzeros (p_d P)]). set (h4 := h3 ++ [vzeros (p_d P)]).
  assert (L1 : length h1 = S (length h)) by apply alloc_length. assert (L2 : length h2 = S (length h1)) by apply alloc_length. assert (L3 : length h3 = S (length h2)) by apply alloc_length. assert (L4 : length h4 = S (length h3)) by apply alloc_length.
  set (L := mkSL (length h) (length h1) (length h2) (length h3)).
  assert (V : saga_view L h4 = saga_init P (load h x0)).
  { unfold saga_view, saga_init, L, h4. cbn [sl_x sl_mem sl_avg sl_tmp]. rewrite load_alloc. rewrite !load_alloc_old by lia. unfold h3. rewrite load_alloc. rewrite !load_alloc_old by lia. unfold h2. rewrite load_alloc. rewrite !load_alloc_old by lia. unfold h1. rewrite load_alloc. reflexivity. }
  pose proof (saga_loop_mem_refines P B px st tol perms (L:=L) max_iter 0 h4 [saga_init P (load h x0)]) as Q. rewrite V in Q.
  assert (D : distinct4 L (length h4)) by (unfold distinct4, L; cbn; lia). specialize (Q D).
  destruct (saga_loop P B px st tol perms max_iter 0 (saga_init P (load h x0)) [saga_init P (load h x0)]) as [r|e]; [|exact Q].
  destruct Q as (m & Em & M1 & M2 & M3 & M4 & M5 & M6). exists m. split; [exact Em|]. split; [exact M2|]. split; [exact M3|]. split; [exact M4|]. split; [rewrite M1; cbn; lia|].
  intros l Hl. rewrite M6 by (try (unfold own4, L; cbn; lia); lia). unfold h4. rewrite load_alloc_old by lia. unfold h3. rewrite load_alloc_old by lia. unfold h2. rewrite load_alloc_old by lia. unfold h1. apply load_alloc_old, Hl.
Qed.
Lemma main_C69_svrg_memory : forall (K : Num) (P : problem K) (h : heap K) (x0 : loc) (step : option K) (prox : option (sprox K)) (ptr : option (list nat)) (max_iter : nat) (tol : K) (perms : nat -> list nat),
  (x0 < length h)%nat ->
  match minimize_svrg P (load h x0) step prox ptr max_iter tol perms with
  | Err e => minimize_svrg_mem P h x0 step prox ptr max_iter tol perms = Err e
  | Ok r => exists m, minimize_svrg_mem P h x0 step prox ptr max_iter tol perms = Ok m /\ load (mr_heap m) (mr_x m) = er_x r /\ mr_success m = er_success r /\ mr_nit m = er_nit r /\
      (length h <= mr_x m)%nat /\ forall l, (l < length h)%nat -> load (mr_heap m) l = load h l
  end.
Proof.
  intros K P h x0 step prox ptr max_iter tol perms Hx0. unfold minimize_svrg, minimize_svrg_mem. destruct step as [st|]; [|reflexivity].
  destruct (make_blocks P _) as [B|e]; [|reflexivity]. cbn [bind alloc]. set (px := match prox with Some q => q | None => no_prox end).
  set (h1 := h ++ [load h x0]). set (h2 := h1 ++ [vzeros (p_d P)]).
  assert (L1 : length h1 = S (length h)) by apply alloc_length. assert (L2 : length h2 = S (length h1)) by apply alloc_length.
  assert (V1 : load h2 (length h) = load h x0) by (unfold h2; rewrite load_alloc_old by lia; unfold h1; apply load_alloc).
  assert (V2 : load h2 (length h1) = vzeros (p_d P)) by apply load_alloc.
  pose proof (@svrg_loop_mem_refines K P B px st tol perms (length h) (length h1) max_iter 0 h2 [(load h x0, vzeros (p_d P))] ltac:(lia) ltac:(lia) ltac:(lia)) as Q. rewrite V1, V2 in Q.
  destruct (svrg_loop P B px st tol perms max_iter 0 (load h x0) (vzeros (p_d P)) [(load h x0, vzeros (p_d P))]) as [r|e]; [|exact Q].
  destruct Q as (m & Em & M1 & M2 & M3 & M4 & M5 & M6). exists m. split; [exact Em|]. split; [exact M2|]. split; [exact M3|]. split; [exact M4|]. split; [lia|].
  intros l Hl. rewrite M6 by lia. unfold h2. rewrite load_alloc_old by lia. unfold h1. apply load_alloc_old, Hl.
Qed.

(** ** C101: element types in minimize_proximal_gradient *)
Lemma main_C101_float_partial : forall (K : Num) (fg : vec K -> K * vec K) (prox : vec K -> K -> vec K) cb (step : strategy K) (tol : K) (max_iter max_bt : nat) (factor : K) (tc : bool) (h : heap K) (x0 : loc),
  match minimize_pg fg prox cb step tol max_iter max_bt factor false tc (load h x0) with
  | Err e => minimize_pg_mem fg prox cb step tol max_iter max_bt factor (fun a => a) tc h x0 = Err e
  | Ok r => exists h' refs, minimize_pg_mem fg prox cb step tol max_iter max_bt factor (fun a => a) tc h x0 = Ok (h', refs, r)
  end.
Proof.
  intros. unfold minimize_pg, minimize_pg_mem. destruct (Nat.eqb max_bt 0); [reflexivity|]. cbn [alloc]. rewrite load_alloc. destruct (fg (load h x0)) as [f0 g0].
  apply (pgm_loop_id fg prox cb step tol max_iter max_bt factor (S max_iter) tc (lx:=length h)); [rewrite alloc_length; lia|]. cbn [st_x]. rewrite load_alloc. reflexivity.
Qed.
(** whatever the element type: the caller's arrays are untouched and the result has entries of that type *)
Lemma main_C101_elements : forall (K : Num) (fg : vec K -> K * vec K) (prox : vec K -> K -> vec K) cb (step : strategy K) (tol : K) (max_iter max_bt : nat) (factor : K) (cast : K -> K) (tc : bool) (h : heap K) (x0 : loc) h' refs r,
  map cast (load h x0) = load h x0 -> minimize_pg_mem fg prox cb step tol max_iter max_bt factor cast tc h x0 = Ok (h', refs, r) ->
  (forall l, (l < length h)%nat -> load h' l = load h l) /\ exists v, r_x r = map cast v.
Proof.
  intros K fg prox cb step tol max_iter max_bt factor cast tc h x0 h' refs r Hc E. unfold minimize_pg_mem in E. destruct (Nat.eqb max_bt 0); [discriminate|]. cbn [alloc] in E. rewrite load_alloc in E. destruct (fg (load h x0)) as [f0 g0].
  apply pgm_loop_frame in E; [|rewrite alloc_length; lia|cbn [st_x]; rewrite load_alloc; reflexivity|intros l []]. destruct E as (E1 & E2 & E3 & E4 & E5).
  split; [intros l Hl; rewrite E3 by lia; apply load_alloc_old, Hl|]. apply E5. exists (load h x0). rewrite load_alloc. symmetry. exact Hc.
Qed.
Lemma int_cast_spec (x : R) : exists z : Z, int_cast x = IZR z /\ Rabs (int_cast x) <= Rabs x < Rabs (int_cast x) + 1.
Proof.
  unfold int_cast. destruct (Rlt_dec x 0) as [H|H].
  - exists (- Int_part (- x))%Z. split; [rewrite opp_IZR; reflexivity|]. destruct (base_Int_part (- x)) as (A & B). rewrite Rabs_Ropp, (Rabs_left x) by lra.
    assert (0 <= IZR (Int_part (- x))). { apply IZR_le. assert (-1 < Int_part (- x))%Z; [|lia]. apply lt_IZR. lra. } rewrite Rabs_pos_eq by assumption. lra.
  - exists (Int_part x). split; [reflexivity|]. destruct (base_Int_part x) as (A & B). rewrite (Rabs_pos_eq x) by lra.
    assert (0 <= IZR (Int_part x)). { apply IZR_le. assert (-1 < Int_part x)%Z; [|lia]. apply lt_IZR. lra. } rewrite Rabs_pos_eq by assumption. lra.
Qed.
Lemma int_cast_small (x : R) : Rabs x < 1 -> int_cast x = 0.
Proof.
  intros H. destruct (int_cast_spec x) as (z & E & A & _). rewrite E in *. rewrite <- abs_IZR in A. f_equal. assert (Z.abs z < 1)%Z; [|lia]. apply lt_IZR. lra.
Qed.
Lemma int_cast_integer (z : Z) : int_cast (IZR z) = IZR z.
Proof.
  destruct (int_cast_spec (IZR z)) as (w & E & A & B). rewrite E in *. rewrite <- !abs_IZR in *. unfold int_cast in E. 
  assert (Z.abs w <= Z.abs z)%Z by (apply le_IZR; exact A). assert (Z.abs z < Z.abs w + 1)%Z by (apply lt_IZR; rewrite plus_IZR; exact B).
  destruct (Rlt_dec (IZR z) 0) as [H1|H1].
  - destruct (base_Int_part (- IZR z)) as (C & D). assert (w = - Int_part (- IZR z))%Z by (apply eq_IZR; rewrite opp_IZR; symmetry; exact E). apply lt_IZR in H1. rewrite <- opp_IZR in *. apply le_IZR in C.
    assert (- z < Int_part (IZR (- z)) + 1)%Z by (apply lt_IZR; rewrite plus_IZR; lra). f_equal. lia.
  - destruct (base_Int_part (IZR z)) as (C & D). apply eq_IZR in E. apply Rnot_lt_le, le_IZR in H1. apply le_IZR in C. assert (z < Int_part (IZR z) + 1)%Z by (apply lt_IZR; rewrite plus_IZR; lra). f_equal. lia.
Qed.
(** L/2 (x - 1/2)^2 *)
Definition halfway (L : R) (x : vec RN) : R * vec RN := (L / 2 * ((nth 0 x 0 - 1 / 2) * (nth 0 x 0 - 1 / 2)), [L * (nth 0 x 0 - 1 / 2)]).
Lemma norm2_row1 (a : R) : norm2 [a] = Rabs a.
Proof. unfold norm2. replace (dot [a] [a]) with (Rsqr a) by (unfold Rsqr; cbn; ring). apply sqrt_Rsqr_abs. Qed.
Lemma vnorm_row1 (a : R) : vnorm (K:=RN) [a] = Rabs a.
Proof. rewrite vnorm_R. apply norm2_row1. Qed.
Lemma pg_loop_next (K : Num) (fg : vec K -> K * vec K) prox step tol max_iter max_bt factor fuel tc s s' c :
  pg_step fg prox step max_bt factor tc s (st_log s) = Ok s' -> st_cert s' = Some c ->
  pg_loop fg prox None step tol max_iter max_bt factor (S fuel) tc s =
  if nltb K c tol then Ok (pg_return s' true false) else if Nat.leb max_iter (st_n s') then Ok (pg_return s' false false)
  else pg_loop fg prox None step tol max_iter max_bt factor fuel tc (mkPg (st_x s') (st_f s') (st_grad s') (st_step s') (S (st_n s')) (st_cert s') (st_certs s') (st_log s') (st_iters s')).
Proof. intros E C. cbn [pg_loop call_cb]. rewrite E. cbn [bind]. rewrite C. reflexivity. Qed.
Lemma pgm_loop_next (K : Num) (fg : vec K -> K * vec K) prox step tol max_iter max_bt factor cast fuel tc lx h refs s s' c :
  pg_step fg prox step max_bt factor tc s (st_log s) = Ok s' -> st_cert s' = Some c -> (lx < length h)%nat ->
  pgm_loop fg prox None step tol max_iter max_bt factor cast (S fuel) tc lx h refs s =
  let h' := store h lx (map cast (st_x s')) in
  if nltb K c tol then Ok (h', refs, pg_return (pg_set_x s' (map cast (st_x s')) (st_n s') (st_log s')) true false)
  else if Nat.leb max_iter (st_n s') then Ok (h', refs, pg_return (pg_set_x s' (map cast (st_x s')) (st_n s') (st_log s')) false false)
  else pgm_loop fg prox None step tol max_iter max_bt factor cast fuel tc lx h' refs (pg_set_x s' (map cast (st_x s')) (S (st_n s')) (st_log s')).
Proof. intros E C Hl. cbn [pgm_loop call_cb]. rewrite E. cbn [bind]. rewrite C. rewrite load_store by exact Hl. reflexivity. Qed.
Lemma main_C101_integer_refuted : forall (L tol factor : R) (max_iter max_bt : nat), 0 < L -> 0 < tol -> (0 < max_iter)%nat -> (0 < max_bt)%nat ->
  exists r1 h2 refs r2,
  minimize_pg (K:=RN) (halfway L) (fun x _ => x) None (SCallable (K:=RN) (fun _ => 1 / L)) tol max_iter max_bt factor false false [0] = Ok r1 /\ r_success r1 = true /\ r_x r1 = [1 / 2] /\
  minimize_pg_mem (K:=RN) (halfway L) (fun x _ => x) None (SCallable (K:=RN) (fun _ => 1 / L)) tol max_iter max_bt factor int_cast false [[0]] 0%nat = Ok (h2, refs, r2) /\ r_success r2 = true /\ r_x r2 = [0] /\
  norm2 (snd (halfway L (r_x r2))) = L / 2.
Proof.
  intros L tol factor max_iter max_bt HL Ht Hm Hb. destruct max_bt as [|max_bt]; [lia|]. destruct max_iter as [|m]; [lia|].
  assert (X1 : 0 - 1 / L * (L * (0 - 1 / 2)) = 1 / 2) by (field; lra). assert (X2 : forall a, a - 1 / L * (L * (1 / 2 - 1 / 2)) = a) by (intros a; field; lra).
  assert (C1 : int_cast (1 / 2) = 0) by (apply int_cast_small; rewrite Rabs_pos_eq; lra). assert (C2 : int_cast 0 = 0) by (apply int_cast_small; rewrite Rabs_R0; lra).
  assert (Z : forall a, (a - a) / (1 / L) = 0) by (intros a; field; lra).
  assert (T : nltb RN 0 tol = true) by (apply Rltb_iff; exact Ht).
  assert (N : norm2 (snd (halfway L [0])) = L / 2). { cbn [halfway snd nth]. rewrite norm2_row1, Rabs_left; lra. }
  assert (S1 : forall a, prox_step (K:=RN) (fun x _ => x) [a] [L * (1 / 2 - 1 / 2)] (1 / L) = [a]) by (intros a; unfold prox_step; cbn; f_equal; apply X2).
  assert (S0 : prox_step (K:=RN) (fun x _ => x) [0] [L * (0 - 1 / 2)] (1 / L) = [1 / 2]) by (unfold prox_step; cbn; f_equal; exact X1).
  assert (V : forall a : R, vnorm (K:=RN) (vdivs (K:=RN) (vsub (K:=RN) [a] [a]) (1 / L)) = 0).
  { intros a. change (vdivs (K:=RN) (vsub (K:=RN) [a] [a]) (1 / L)) with [(a - a) / (1 / L)]. rewrite Z, vnorm_row1. apply Rabs_R0. }
  set (st := SCallable (K:=RN) (fun _ => 1 / L)).
  assert (G1 : forall log fk k, pg_step (K:=RN) (halfway L) (fun x _ => x) st (S max_bt) factor false (mkPg (K:=RN) [0] fk [L * (0 - 1 / 2)] None k None [] log []) log =
    Ok (mkPg (K:=RN) [1 / 2] (fst (halfway L [1 / 2])) [L * (1 / 2 - 1 / 2)] (Some (1 / L)) k (Some (vnorm (K:=RN) (vdivs (K:=RN) (vsub (K:=RN) [0] [1 / 2]) (1 / L)))) []
      (EvEval (K:=RN) [1 / 2] :: EvStep (mkLocals (K:=RN) [0] [L * (0 - 1 / 2)] None k None) :: log) [mkIter (K:=RN) [0] fk [L * (0 - 1 / 2)] (1 / L) (1 / L) [1 / 2] true])).
  { intros log fk k. unfold pg_step, st. cbn [st_x st_grad]. rewrite S0. reflexivity. }
  assert (G2 : forall a log fk k c its, exists its' log', pg_step (K:=RN) (halfway L) (fun x _ => x) st (S max_bt) factor false (mkPg (K:=RN) [a] fk [L * (1 / 2 - 1 / 2)] (Some (1 / L)) k (Some c) [] log its) log =
    Ok (mkPg (K:=RN) [a] (fst (halfway L [a])) (snd (halfway L [a])) (Some (1 / L)) k (Some 0) [] log' its')).
  { intros a log fk k c its. eexists. eexists. unfold pg_step, st. cbn [st_x st_grad]. rewrite S1, V. reflexivity. }
  set (c1 := vnorm (K:=RN) (vdivs (K:=RN) (vsub (K:=RN) [0] [1 / 2]) (1 / L))) in *.
  set (sA := mkPg (K:=RN) [0] (fst (halfway L [0])) [L * (0 - 1 / 2)] None 0 None [] [EvEval (K:=RN) [0]] []).
  pose proof (G1 [EvEval (K:=RN) [0]] (fst (halfway L [0])) 0%nat) as A1. fold sA in A1.
  match type of A1 with _ = Ok ?q => set (sB := q) in A1 end.
  assert (CB : st_cert sB = Some c1) by reflexivity.
  assert (R1 : exists r1, pg_loop (K:=RN) (halfway L) (fun x _ => x) None st tol (S m) (S max_bt) factor (S (S m)) false sA = Ok r1 /\ r_success r1 = true /\ r_x r1 = [1 / 2]).
  { rewrite (@pg_loop_next RN _ _ _ _ _ _ _ _ _ _ _ _ A1 CB). destruct (nltb RN c1 tol); [eexists; repeat split|]. cbn [sB st_n Nat.leb].
    match goal with |- context [pg_loop _ _ _ _ _ _ _ _ _ _ ?q] => set (sC := q) end.
    destruct (G2 (1 / 2) (st_log sC) (st_f sC) (st_n sC) c1 (st_iters sC)) as (its & lg & Q). rewrite (@pg_loop_next RN _ _ _ _ _ _ _ _ _ sC _ _ Q eq_refl), T. eexists. repeat split. }
  assert (R2 : exists (h2 : heap RN) (refs : list loc) (r2 : pg_result RN), pgm_loop (K:=RN) (halfway L) (fun x _ => x) None st tol (S m) (S max_bt) factor int_cast (S (S m)) false 1%nat [[0]; [0]] [] sA = Ok (h2, refs, r2) /\ r_success r2 = true /\ r_x r2 = [0]).
  { rewrite (@pgm_loop_next RN _ _ _ _ _ _ _ _ _ _ _ [[0]; [0]] _ _ _ _ A1 CB) by (cbn; lia). cbv zeta.
    assert (M : @map (carrier RN) (carrier RN) int_cast (st_x sB) = [0]) by (cbn [sB st_x map]; f_equal; exact C1). rewrite M.
    destruct (nltb RN c1 tol); [eexists; eexists; eexists; repeat split|]. cbn [sB st_n Nat.leb store].
    match goal with |- context [pgm_loop _ _ _ _ _ _ _ _ _ _ _ _ _ _ ?q] => set (sC := q) end.
    destruct (G2 0 (st_log sC) (st_f sC) (st_n sC) c1 (st_iters sC)) as (its & lg & Q). rewrite (@pgm_loop_next RN _ _ _ _ _ _ _ _ _ _ _ [[0]; [0]] _ sC _ _ Q eq_refl) by (cbn; lia). cbv zeta. rewrite T.
    eexists. eexists. eexists. split; [reflexivity|]. split; [reflexivity|]. cbn. f_equal. exact C2. }
  destruct R1 as (r1 & R1 & R1s & R1x). destruct R2 as (h2 & refs & r2 & R2 & R2s & R2x). exists r1, h2, refs, r2.
  split; [exact R1|]. split; [exact R1s|]. split; [exact R1x|]. split; [exact R2|]. split; [exact R2s|]. split; [exact R2x|]. rewrite R2x. exact N.
Qed.

(** ** C102: primal-dual and the array returned by [L.matvec] *)
Lemma main_C102_fresh_partial : forall (K : Num) (fg : vec K -> K * vec K) (h : heap K) (x0 : loc) prox_1 prox_2 L (tol : K) (max_iter : nat) cb (step_size : K) step_size2 (line_search : bool) (max_iter_ls ls_fuel : nat),
  match minimize_primal_dual fg (load h x0) prox_1 prox_2 L tol max_iter cb step_size step_size2 line_search max_iter_ls ls_fuel with
  | Err e => minimize_primal_dual_mem (fun a => a) (fun a => a) Fresh fg h x0 prox_1 prox_2 L tol max_iter cb step_size step_size2 line_search max_iter_ls ls_fuel = Err e
  | Ok r => exists h', minimize_primal_dual_mem (fun a => a) (fun a => a) Fresh fg h x0 prox_1 prox_2 L tol max_iter cb step_size step_size2 line_search max_iter_ls ls_fuel = Ok (h', r) /\
      forall l, (l < length h)%nat -> load h' l = load h l
  end.
Proof.
  intros. unfold minimize_primal_dual, minimize_primal_dual_mem. destruct (match L with Some l => l | None => _ end) as [mv rmv]. destruct (Nat.eqb max_iter_ls 0); [reflexivity|].
  destruct (match step_size2 with None => _ | Some t => _ end) as [tau ratio]. cbn [alloc]. set (h1 := h ++ [load h x0]). assert (V0 : load h1 (length h) = load h x0) by apply load_alloc. rewrite V0. set (h2 := h1 ++ [mv (load h x0)]).
  assert (L1 : length h1 = S (length h)) by apply alloc_length. assert (L2 : length h2 = S (length h1)) by apply alloc_length.
  assert (V1 : load h2 (length h) = load h x0) by (unfold h2; rewrite load_alloc_old by lia; apply load_alloc). assert (V2 : load h2 (length h1) = mv (load h x0)) by apply load_alloc.
  rewrite V1, V2. destruct (fg (load h x0)) as [f0 g0].
  match goal with |- match pd_loop ?a ?b ?c ?d ?rm ?t ?ls ?lf ?ra ?cb' ?mi ?k ?it ?s with Err e => _ | Ok r => _ end =>
    pose proof (@pdm_loop_id K a b c d rm t ls lf ra cb' mi k it (length h) (length h1) h2 s ltac:(lia) ltac:(lia) ltac:(lia) (eq_sym V1) (eq_sym V2)) as Q;
    destruct (pd_loop a b c d rm t ls lf ra cb' mi k it s) as [r|e']; [|exact Q]
  end.
  destruct Q as (h' & Q). exists h'. split; [exact Q|]. intros l Hl. apply pdm_loop_frame in Q; [|lia|lia]. destruct Q as (_ & _ & Q3 & _). rewrite Q3 by lia. unfold h2. rewrite load_alloc_old by lia. apply load_alloc_old, Hl.
Qed.

(** f(x) = (x - c)^2 / 2, no proximal terms, L the identity *)
Definition parabola (c : R) (x : vec RN) : R * vec RN := ((nth 0 x 0 - c) * (nth 0 x 0 - c) / 2, [nth 0 x 0 - c]).
Section Alias.
Variables (c tol : R) (lsf mi : nat).
Hypothesis Hc : 0 < c.
Hypothesis Ht : 0 < tol <= 2 * c.
Notation idp := (fun (x : vec RN) (_ : RN) => x).
Notation idm := (fun x : vec RN => x).
Notation pdl := (pd_loop (K:=RN) (parabola c) idp idp idm idm tol false lsf (1 / 2) None mi).
Notation pdm := (pdm_loop (K:=RN) (parabola c) idp idp idm idm tol false lsf (1 / 2) None mi (fun a => a) (fun a => a)).
Lemma conj_zero (w : R) : pd_prox_2_conj (K:=RN) idp [w] (1 / 2) = [0].
Proof. unfold pd_prox_2_conj. cbn. f_equal. field. Qed.
Lemma primal_one (x y g f th : R) : pd_primal (K:=RN) (parabola c) idp idm idm false lsf (1 / 2) [x] [y] [0] f [g] 1 (1 / 2) th =
  Ok (mkPdStep (K:=RN) [x + y - g] (parabola c [x + y - g]) 1 (1 / 2) th [- y]).
Proof. unfold pd_primal. cbn. replace (2 * 0 - y) with (- y) by ring. replace (x - 1 * (- y + g)) with (x + y - g) by ring. reflexivity. Qed.
Definition state_is (s : pd_state RN) (x y g : R) (n : option R) : Prop :=
  pd_x s = [x] /\ pd_y s = [y] /\ pd_grad s = [g] /\ pd_sigma s = 1 /\ pd_tau s = 1 / 2 /\ pd_norm s = n.
Definition small (n : option R) : bool := match n with Some v => nltb RN v tol | None => false end.
Definition norm_after (it : nat) (y g : R) (n : option R) : option R := if Nat.eqb (Nat.modulo it 100) 0 then Some (Rabs (y - g) + Rabs y) else n.
Lemma incr_one (x y g : R) : vnorm (K:=RN) (vsub (K:=RN) [x + y - g] [x]) + vnorm (K:=RN) (vsub (K:=RN) [0] [y]) = Rabs (y - g) + Rabs y.
Proof.
  change (vsub (K:=RN) [x + y - g] [x]) with [x + y - g - x]. change (vsub (K:=RN) [0] [y]) with [0 - y]. rewrite !vnorm_row1. replace (x + y - g - x) with (y - g) by ring. rewrite Rminus_0_l, Rabs_Ropp. reflexivity.
Qed.
Lemma pdl_stop k it s x y g n : state_is s x y g n -> small (norm_after it y g n) = true -> exists r, pdl (S k) it s = Ok r /\ pr_success r = true /\ pr_x r = [x + y - g].
Proof.
  intros (E1 & E2 & E3 & E4 & E5 & E6) Hs. destruct s as [sx sy sf sg ss st sth sn sl si]. cbn in E1, E2, E3, E4, E5, E6. subst. cbn [pd_loop pd_x pd_y pd_f pd_grad pd_sigma pd_tau pd_theta pd_norm].
  change (vadd (K:=RN) [y] (vscale (K:=RN) (1 / 2) [x])) with [y + 1 / 2 * x]. rewrite conj_zero, primal_one. cbn [bind ps_x]. rewrite incr_one.
  match goal with |- context [if ?b then _ else _] => change b with (small (norm_after it y g n)) end. rewrite Hs. eexists. repeat split.
Qed.
Lemma pdl_next k it s x y g n : state_is s x y g n -> small (norm_after it y g n) = false ->
  exists s', state_is s' (x + y - g) 0 (x + y - g - c) (norm_after it y g n) /\ pdl (S (S k)) it s = pdl (S k) (S it) s'.
Proof.
  intros (E1 & E2 & E3 & E4 & E5 & E6) Hs. destruct s as [sx sy sf sg ss st sth sn sl si]. cbn in E1, E2, E3, E4, E5, E6. subst. remember (S k) as k1. cbn [pd_loop pd_x pd_y pd_f pd_grad pd_sigma pd_tau pd_theta pd_norm].
  change (vadd (K:=RN) [y] (vscale (K:=RN) (1 / 2) [x])) with [y + 1 / 2 * x]. rewrite conj_zero, primal_one. cbn [bind ps_x]. rewrite incr_one.
  match goal with |- context [if ?b then _ else _] => change b with (small (norm_after it y g n)) end. rewrite Hs. subst k1. eexists. split; [|reflexivity]. repeat split.
Qed.
Lemma pdm_stop k it l h s x y g n : (l < length h)%nat -> state_is s x y g n -> small (norm_after it y g n) = true -> exists h' r, pdm (S k) it l l h s = Ok (h', r) /\ pr_success r = true /\ pr_x r = [0].
Proof.
  intros Hl (E1 & E2 & E3 & E4 & E5 & E6) Hs. destruct s as [sx sy sf sg ss st sth sn sl si]. cbn in E1, E2, E3, E4, E5, E6. subst. cbn [pdm_loop pd_x pd_y pd_f pd_grad pd_sigma pd_tau pd_theta pd_norm].
  change (vadd (K:=RN) [y] (vscale (K:=RN) (1 / 2) [x])) with [y + 1 / 2 * x]. rewrite conj_zero, primal_one. cbn [bind ps_x]. rewrite incr_one.
  match goal with |- context [if ?b then _ else _] => change b with (small (norm_after it y g n)) end. rewrite Hs. eexists. eexists. split; [reflexivity|]. split; [reflexivity|]. cbn [pr_x pd_finish pd_x]. apply load_store. rewrite store_length. exact Hl.
Qed.
Lemma pdm_next k it l h s x y g n : (l < length h)%nat -> state_is s x y g n -> small (norm_after it y g n) = false ->
  exists h' s', length h' = length h /\ state_is s' 0 0 (x + y - g - c) (norm_after it y g n) /\ pdm (S (S k)) it l l h s = pdm (S k) (S it) l l h' s'.
Proof.
  intros Hl (E1 & E2 & E3 & E4 & E5 & E6) Hs. destruct s as [sx sy sf sg ss st sth sn sl si]. cbn in E1, E2, E3, E4, E5, E6. subst. remember (S k) as k1. cbn [pdm_loop pd_x pd_y pd_f pd_grad pd_sigma pd_tau pd_theta pd_norm].
  change (vadd (K:=RN) [y] (vscale (K:=RN) (1 / 2) [x])) with [y + 1 / 2 * x]. rewrite conj_zero, primal_one. cbn [bind ps_x]. rewrite incr_one.
  match goal with |- context [if ?b then _ else _] => change b with (small (norm_after it y g n)) end. rewrite Hs. subst k1. eexists. eexists. split; [|split; [|reflexivity]]; [rewrite !store_length; reflexivity|].
  assert (Q : forall h0 : heap RN, length h0 = length h -> load (store h0 l [0]) l = [0]) by (intros h0 E; apply load_store; rewrite E; exact Hl).
  unfold state_is. cbn [pd_x pd_y pd_grad pd_sigma pd_tau pd_norm snd parabola nth ps_fg ps_sigma ps_tau]. change (map (fun a : RN => a) [0]) with [0]. rewrite Q by apply store_length. repeat split; reflexivity.
Qed.
(** iterations 1, ..., 100 *)
Lemma pdl_settles j : forall it k s, (it + j = 100)%nat -> (2 <= it)%nat -> (j < k)%nat -> state_is s c 0 0 (Some (2 * c)) -> exists r, pdl k it s = Ok r /\ pr_success r = true /\ pr_x r = [c].
Proof.
  assert (T : small (Some (2 * c)) = false) by (apply Rltb_false; lra). assert (T0 : small (Some (Rabs (0 - 0) + Rabs 0)) = true) by (apply Rltb_iff; rewrite Rminus_0_r, Rabs_R0; lra).
  induction j as [|j IH]; intros it k s Hi H2 Hk Hs; (destruct k as [|k]; [lia|]).
  - assert (it = 100)%nat by lia. subst it. destruct (pdl_stop k 100 _ _ _ _ _ Hs) as (r & A & B & D); [exact T0|]. exists r. split; [exact A|]. split; [exact B|]. rewrite D. f_equal. ring.
  - assert (M : Nat.eqb (Nat.modulo it 100) 0 = false) by (apply Nat.eqb_neq; rewrite Nat.mod_small by lia; lia). destruct k as [|k]; [lia|].
    destruct (pdl_next k it _ _ _ _ _ Hs) as (s' & S' & E); [unfold norm_after; rewrite M; exact T|]. unfold norm_after in S'. rewrite M in S'. rewrite E. apply IH; [lia|lia|lia|].
    replace (c + 0 - 0) with c in S' by ring. replace (c - c) with 0 in S' by ring. exact S'.
Qed.
Lemma pdm_flips j : forall it k l h s, (l < length h)%nat -> (it + j = 100)%nat -> (1 <= it)%nat -> (j < k)%nat -> state_is s 0 0 (if Nat.even it then 0 else - c) (Some (2 * c)) -> exists h' r, pdm k it l l h s = Ok (h', r) /\ pr_success r = true /\ pr_x r = [0].
Proof.
  assert (T : small (Some (2 * c)) = false) by (apply Rltb_false; lra). assert (T0 : small (Some (Rabs (0 - 0) + Rabs 0)) = true) by (apply Rltb_iff; rewrite Rminus_0_r, Rabs_R0; lra).
  induction j as [|j IH]; intros it k l h s Hl Hi H2 Hk Hs; (destruct k as [|k]; [lia|]).
  - assert (it = 100)%nat by lia. subst it. apply (pdm_stop k 100 _ _ _ _ _ _ _ Hl Hs). exact T0.
  - assert (M : Nat.eqb (Nat.modulo it 100) 0 = false) by (apply Nat.eqb_neq; rewrite Nat.mod_small by lia; lia). destruct k as [|k]; [lia|].
    destruct (pdm_next k it _ _ _ _ _ _ _ Hl Hs) as (h' & s' & L' & S' & E); [unfold norm_after; rewrite M; exact T|]. unfold norm_after in S'. rewrite M in S'. rewrite E. apply IH; [rewrite L'; exact Hl|lia|lia|lia|].
    rewrite Nat.even_succ, <- Nat.negb_even. destruct (Nat.even it); cbn [negb].
    + replace (0 + 0 - 0 - c) with (- c) in S' by ring. exact S'.
    + replace (0 + 0 - - c - c) with 0 in S' by ring. exact S'.
Qed.
End Alias.
Lemma main_C102_same_array_refuted : forall (c tol : R) (max_iter lsf : nat), 0 < c -> 0 < tol <= 2 * c -> (100 < max_iter)%nat ->
  exists r1 h' r2,
  minimize_primal_dual (K:=RN) (parabola c) [- c] None None None tol max_iter None 1 None false 1 lsf = Ok r1 /\ pr_success r1 = true /\ pr_x r1 = [c] /\
  minimize_primal_dual_mem (K:=RN) (fun a => a) (fun a => a) SameArray (parabola c) [[- c]] 0%nat None None None tol max_iter None 1 None false 1 lsf = Ok (h', r2) /\ pr_success r2 = true /\ pr_x r2 = [0] /\
  norm2 (snd (parabola c (pr_x r2))) = c.
Proof.
  intros c tol mi lsf Hc Ht Hm. destruct mi as [|[|[|m]]]; try lia. set (mi := S (S (S m))) in *.
  assert (E0 : forall f log its, @state_is (mkPdS (K:=RN) [- c] [- c] f [- c - c] 1 (1 / 2) 1 None log its) (- c) (- c) (- c - c) None) by (intros; repeat split).
  assert (T0 : small tol (norm_after 0 (- c) (- c - c) None) = false). { apply Rltb_false. replace (- c - (- c - c)) with c by ring. rewrite Rabs_Ropp, Rabs_pos_eq; lra. }
  assert (V0 : norm_after 0 (- c) (- c - c) None = Some (2 * c)). { unfold norm_after. cbn [Nat.modulo Nat.divmod fst snd Nat.sub Nat.eqb]. f_equal. replace (- c - (- c - c)) with c by ring. rewrite Rabs_Ropp, Rabs_pos_eq; lra. }
  assert (T1 : small tol (norm_after 1 0 (- c) (Some (2 * c))) = false) by (apply Rltb_false; lra).
  assert (R1 : exists r1, minimize_primal_dual (K:=RN) (parabola c) [- c] None None None tol mi None 1 None false 1 lsf = Ok r1 /\ pr_success r1 = true /\ pr_x r1 = [c]).
  { unfold minimize_primal_dual. cbn [Nat.eqb]. change (parabola c [- c]) with ((- c - c) * (- c - c) / 2, [- c - c]). cbv iota.
    match goal with |- context [pd_loop _ _ _ _ _ _ _ _ _ _ _ _ _ ?q] => set (s0 := q) end.
    assert (Q0 : state_is s0 (- c) (- c) (- c - c) None). { unfold s0, state_is. cbn. repeat split. lra. }
    destruct (pdl_next c tol lsf mi (S m) 0 _ _ _ _ _ Q0 T0) as (s1 & Q1 & E1). 
    match goal with |- context [pd_loop ?a ?b ?d ?e ?f ?g ?h ?i ?j ?k ?l ?n ?o s0] => change (pd_loop a b d e f g h i j k l n o s0) with (pd_loop (K:=RN) (parabola c) (fun x _ => x) (fun x _ => x) (fun x => x) (fun x => x) tol false lsf (1 / 2) None mi (S (S (S m))) 0 s0) end.
    rewrite E1. rewrite V0 in Q1. replace (- c + - c - (- c - c)) with 0 in Q1 by ring. replace (0 - c) with (- c) in Q1 by ring.
    destruct (pdl_next c tol lsf mi m 1 _ _ _ _ _ Q1 T1) as (s2 & Q2 & E2). rewrite E2. replace (0 + 0 - - c) with c in Q2 by ring. replace (c - c) with 0 in Q2 by ring.
    apply (@pdl_settles c tol lsf mi Ht 98 2 (S m) s2); [reflexivity|lia|lia|exact Q2]. }
  assert (R2 : exists h' r2, minimize_primal_dual_mem (K:=RN) (fun a => a) (fun a => a) SameArray (parabola c) [[- c]] 0%nat None None None tol mi None 1 None false 1 lsf = Ok (h', r2) /\ pr_success r2 = true /\ pr_x r2 = [0]).
  { unfold minimize_primal_dual_mem. cbn [Nat.eqb alloc length app load nth]. change (parabola c [- c]) with ((- c - c) * (- c - c) / 2, [- c - c]). cbv iota.
    match goal with |- context [pdm_loop _ _ _ _ _ _ _ _ _ _ _ _ _ _ _ _ _ _ ?q] => set (s0 := q) end.
    assert (Q0 : state_is s0 (- c) (- c) (- c - c) None). { unfold s0, state_is. cbn. repeat split. lra. }
    destruct (@pdm_next c tol lsf mi (S m) 0 1 [[- c]; [- c]] _ _ _ _ _ ltac:(cbn; lia) Q0 T0) as (h1 & s1 & L1 & Q1 & E1).
    match goal with |- context [pdm_loop ?a ?b ?d ?e ?f ?g ?h ?i ?j ?k ?l ?n1 ?n2 ?n ?o ?p ?q ?r s0] => change (pdm_loop a b d e f g h i j k l n1 n2 n o p q r s0) with (pdm_loop (K:=RN) (parabola c) (fun x _ => x) (fun x _ => x) (fun x => x) (fun x => x) tol false lsf (1 / 2) None mi (fun z => z) (fun z => z) (S (S (S m))) 0 1%nat 1%nat [[- c]; [- c]] s0) end.
    rewrite E1. rewrite V0 in Q1. replace (- c + - c - (- c - c) - c) with (- c) in Q1 by ring.
    apply (@pdm_flips c tol lsf mi Ht 99 1 (S (S m)) 1 h1 s1); [rewrite L1; cbn; lia|reflexivity|lia|lia|exact Q1]. }
  destruct R1 as (r1 & A1 & A2 & A3). destruct R2 as (h' & r2 & B1 & B2 & B3). exists r1, h', r2. split; [exact A1|]. split; [exact A2|]. split; [exact A3|]. split; [exact B1|]. split; [exact B2|]. split; [exact B3|].
  rewrite B3. cbn [parabola snd nth]. rewrite norm2_row1, Rabs_left; lra.
Qed.

(** ** C103: arrays handed to the callback *)
(** every call of the callback sees the array that the solver returns in the end *)
Lemma main_C103_same_array : forall (K : Num) (fg : vec K -> K * vec K) (prox : vec K -> K -> vec K) cb (step : strategy K) (tol : K) (max_iter max_bt : nat) (factor : K) (cast : K -> K) (tc : bool) (h : heap K) (x0 : loc) h' refs r,
  minimize_pg_mem fg prox cb step tol max_iter max_bt factor cast tc h x0 = Ok (h', refs, r) -> forall l, In l refs -> (length h <= l)%nat /\ load h' l = r_x r.
Proof.
  intros K fg prox cb step tol max_iter max_bt factor cast tc h x0 h' refs r E. unfold minimize_pg_mem in E. destruct (Nat.eqb max_bt 0); [discriminate|]. cbn [alloc] in E. rewrite load_alloc in E. destruct (fg (load h x0)) as [f0 g0].
  apply pgm_loop_frame in E; [|rewrite alloc_length; lia|cbn [st_x]; rewrite load_alloc; reflexivity|intros l []]. destruct E as (E1 & E2 & E3 & E4 & E5). intros l Hl. rewrite (E4 l Hl). split; [lia|exact E2].
Qed.
Lemma main_C103_kept_refuted : forall (K : Num) (fg : vec K -> K * vec K) (prox : vec K -> K -> vec K) (t tol factor : K) (max_bt : nat) (tc : bool) (h : heap K) (x0 : loc), (0 < max_bt)%nat ->
  exists h' r l, minimize_pg_mem fg prox (Some (fun _ => false)) (SCallable (fun _ => t)) tol 0 max_bt factor (fun a => a) tc h x0 = Ok (h', [length h], r) /\
    In (EvCallback l) (r_log r) /\ lc_x l = load h x0 /\ load h' (length h) = prox (vsub (load h x0) (vscale t (snd (fg (load h x0))))) t.
Proof.
  intros K fg prox t tol factor max_bt tc h x0 Hb. destruct max_bt as [|mb]; [lia|]. unfold minimize_pg_mem. cbn [Nat.eqb alloc]. rewrite load_alloc. destruct (fg (load h x0)) as [f0 g0] eqn:Ef. cbn [init_step pgm_loop call_cb st_log pg_step bind st_cert st_n Nat.leb].
  set (h' := store _ _ _). assert (Q : load h' (length h) = prox (vsub (load h x0) (vscale t g0)) t). { unfold h'. rewrite load_store by (rewrite alloc_length; lia). rewrite map_id. reflexivity. }
  destruct (nltb K _ tol); (eexists; eexists; eexists; split; [reflexivity|]; split; [cbn; right; right; left; reflexivity|]; split; [reflexivity|exact Q]).
Qed.
(** integer starting points in minimize_primal_dual: the result is made of integers *)
Lemma main_C101_primal_dual : forall (K : Num) (cast_x cast_y : K -> K) (fg : vec K -> K * vec K) (h : heap K) (x0 : loc) prox_1 prox_2 L (tol : K) (max_iter : nat) cb (step_size : K) step_size2 (line_search : bool) (max_iter_ls ls_fuel : nat) h' r,
  minimize_primal_dual_mem cast_x cast_y Fresh fg h x0 prox_1 prox_2 L tol max_iter cb step_size step_size2 line_search max_iter_ls ls_fuel = Ok (h', r) ->
  (forall l, (l < length h)%nat -> load h' l = load h l) /\ exists v, pr_x r = map cast_x v.
Proof.
  intros K cast_x cast_y fg h x0 prox_1 prox_2 L tol max_iter cb step_size step_size2 line_search max_iter_ls ls_fuel h' r E. unfold minimize_primal_dual_mem in E. destruct (match L with Some l => l | None => _ end) as [mv rmv]. destruct (Nat.eqb max_iter_ls 0); [discriminate|].
  destruct (match step_size2 with None => _ | Some t => _ end) as [tau ratio]. cbn [alloc] in E. set (h1 := h ++ [load h x0]) in *. set (h2 := h1 ++ [mv (load h1 (length h))]) in *. destruct (fg (load h2 (length h))) as [f0 g0].
  assert (L1 : length h1 = S (length h)) by apply alloc_length. assert (L2 : length h2 = S (length h1)) by apply alloc_length.
  apply pdm_loop_frame in E; [|lia|lia]. destruct E as (_ & _ & Q3 & Q4 & _). split; [|apply Q4; lia].
  intros l Hl. rewrite Q3 by lia. unfold h2. rewrite load_alloc_old by lia. apply load_alloc_old, Hl.
Qed.
