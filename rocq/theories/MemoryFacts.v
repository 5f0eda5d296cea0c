(** * Facts about the memory models *)
From Coq Require Import ZArith Bool List Lia.
From Verif Require Import Num Vec ModelUtils ModelProxGrad ModelSplitting ModelRandomized RVec ModelMemory.
Import ListNotations.
Set Implicit Arguments.

Section H.
Context {K : Num}.
Implicit Types h : heap K.
Lemma store_length h l (v : vec K) : length (store h l v) = length h.
Proof. revert l. induction h as [|w h IH]; intros [|l]; cbn; auto. Qed.
Lemma load_store h l (v : vec K) : l < length h -> load (store h l v) l = v.
Proof. unfold load. revert l. induction h as [|w h IH]; intros [|l] H; cbn in *; try lia; auto. apply IH. lia. Qed.
Lemma load_store_other h l l' (v : vec K) : l <> l' -> load (store h l v) l' = load h l'.
Proof. unfold load. revert l l'. induction h as [|w h IH]; intros [|l] [|l'] H; cbn; try reflexivity; try lia. apply IH. lia. Qed.
Lemma load_alloc h (v : vec K) : load (h ++ [v]) (length h) = v.
Proof. unfold load. rewrite app_nth2, Nat.sub_diag by lia. reflexivity. Qed.
Lemma load_alloc_old h (v : vec K) l : l < length h -> load (h ++ [v]) l = load h l.
Proof. intros H. unfold load. apply app_nth1. exact H. Qed.
Lemma alloc_length h (v : vec K) : length (h ++ [v]) = S (length h).
Proof. rewrite app_length. cbn. lia. Qed.
End H.

(** ** proximal gradient *)
Section Pg.
Context {K : Num}.
Variable fg : vec K -> K * vec K.
Variable prox : vec K -> K -> vec K.
Variable cb : option (list (event K) -> bool).
Variable step : strategy K.
Variable tol : K.
Variable max_iter max_bt : nat.
Variable factor : K.
Lemma pg_set_same (s : pg_state K) : pg_set_x s (st_x s) (st_n s) (st_log s) = s.
Proof. destruct s. reflexivity. Qed.
Lemma pgm_loop_id fuel tc lx : forall h refs s, lx < length h -> st_x s = load h lx ->
  match pg_loop fg prox cb step tol max_iter max_bt factor fuel tc s with
  | Err e => pgm_loop fg prox cb step tol max_iter max_bt factor (fun a => a) fuel tc lx h refs s = Err e
  | Ok r => exists h' refs', pgm_loop fg prox cb step tol max_iter max_bt factor (fun a => a) fuel tc lx h refs s = Ok (h', refs', r)
  end.
Proof.
  induction fuel as [|fuel IH]; intros h refs s Hl Es; [reflexivity|]. cbn [pg_loop pgm_loop].
  destruct (call_cb cb (st_log s) (pg_locals s)) as [stop log1]. destruct stop.
  { eexists. eexists. unfold pg_set_x. rewrite <- Es. reflexivity. }
  destruct (pg_step fg prox step max_bt factor tc s log1) as [s'|e]; [|reflexivity]. cbn [bind]. rewrite map_id, load_store by exact Hl.
  rewrite pg_set_same. destruct (st_cert s') as [c|] eqn:Ec; [|reflexivity]. destruct (nltb K c tol); [eexists; eexists; reflexivity|].
  destruct (Nat.leb max_iter (st_n s')); [eexists; eexists; reflexivity|].
  unfold pg_set_x. rewrite Ec. apply IH; [rewrite store_length; exact Hl|]. cbn [st_x]. rewrite load_store by exact Hl. reflexivity.
Qed.
(** for every element type: only [lx] is written, every callback is shown [lx], which holds the result *)
Lemma pgm_loop_frame (cast : K -> K) fuel tc lx : forall h refs s h' refs' r, lx < length h -> st_x s = load h lx -> (forall l, In l refs -> l = lx) ->
  pgm_loop fg prox cb step tol max_iter max_bt factor cast fuel tc lx h refs s = Ok (h', refs', r) ->
  length h' = length h /\ load h' lx = r_x r /\ (forall l, l <> lx -> load h' l = load h l) /\ (forall l, In l refs' -> l = lx) /\
  ((exists v, load h lx = map cast v) -> exists v, r_x r = map cast v).
Proof.
  induction fuel as [|fuel IH]; intros h refs s h' refs' r Hl Es Hr E; [discriminate|]. cbn [pgm_loop] in E.
  destruct (call_cb cb (st_log s) (pg_locals s)) as [stop log1]. set (refs1 := match cb with None => refs | Some _ => lx :: refs end) in *.
  assert (Hr1 : forall l, In l refs1 -> l = lx) by (unfold refs1; destruct cb; [intros l [<-|H]; auto|exact Hr]). destruct stop.
  { injection E as <- <- <-. cbn. repeat split; auto. }
  destruct (pg_step fg prox step max_bt factor tc s log1) as [s'|e]; [|discriminate]. cbn [bind] in E.
  assert (Hx : load (store h lx (map cast (st_x s'))) lx = map cast (st_x s')) by (apply load_store, Hl).
  assert (Ho : forall l, l <> lx -> load (store h lx (map cast (st_x s'))) l = load h l) by (intros l Nl; apply load_store_other; auto).
  destruct (st_cert s') as [c|]; [|discriminate]. destruct (nltb K c tol).
  { injection E as <- <- <-. cbn. split; [apply store_length|]. split; [reflexivity|]. split; [exact Ho|]. split; [exact Hr1|]. intros _. exists (st_x s'). exact Hx. }
  destruct (Nat.leb max_iter (st_n s')).
  { injection E as <- <- <-. cbn. split; [apply store_length|]. split; [reflexivity|]. split; [exact Ho|]. split; [exact Hr1|]. intros _. exists (st_x s'). exact Hx. }
  apply IH in E; [|rewrite store_length; exact Hl|reflexivity|exact Hr1]. rewrite store_length in E. destruct E as (E1 & E2 & E3 & E4 & E5).
  split; [exact E1|]. split; [exact E2|]. split; [intros l Nl; rewrite E3 by exact Nl; apply Ho, Nl|]. split; [exact E4|]. intros _. apply E5. exists (st_x s'). exact Hx.
Qed.
End Pg.

(** ** primal-dual *)
Section Pd.
Context {K : Num}.
Variable fg : vec K -> K * vec K.
Variables prox_1 prox_2 : vec K -> K -> vec K.
Variables matvec rmatvec : vec K -> vec K.
Variable tol : K.
Variable line_search : bool.
Variable ls_fuel : nat.
Variable ss_ratio : K.
Variable cb : option (list (pd_locals K) -> bool).
Variable max_iter : nat.
Lemma pdm_loop_id k : forall it lx ly h s, lx < length h -> ly < length h -> lx <> ly -> pd_x s = load h lx -> pd_y s = load h ly ->
  match pd_loop fg prox_1 prox_2 matvec rmatvec tol line_search ls_fuel ss_ratio cb max_iter k it s with
  | Err e => pdm_loop fg prox_1 prox_2 matvec rmatvec tol line_search ls_fuel ss_ratio cb max_iter (fun a => a) (fun a => a) k it lx ly h s = Err e
  | Ok r => exists h', pdm_loop fg prox_1 prox_2 matvec rmatvec tol line_search ls_fuel ss_ratio cb max_iter (fun a => a) (fun a => a) k it lx ly h s = Ok (h', r)
  end.
Proof.
  induction k as [|k IH]; intros it lx ly h s Hx Hy Hn Ex Ey; [reflexivity|]. cbn [pd_loop pdm_loop].
  set (yn := pd_prox_2_conj prox_2 (vadd (pd_y s) (vscale (pd_tau s) (matvec (pd_x s)))) (pd_tau s)).
  destruct (pd_primal fg prox_1 matvec rmatvec line_search ls_fuel ss_ratio (pd_x s) (pd_y s) yn (pd_f s) (pd_grad s) (pd_sigma s) (pd_tau s) (pd_theta s)) as [o|e]; [|reflexivity].
  cbn [bind]. rewrite !map_id. set (h' := store (store h lx (ps_x o)) ly yn).
  assert (Hly : load h' ly = yn) by (apply load_store; rewrite store_length; exact Hy).
  assert (Hlx : load h' lx = ps_x o) by (unfold h'; rewrite load_store_other by auto; apply load_store, Hx). rewrite Hlx, Hly.
  set (nrm := if Nat.eqb (Nat.modulo it 100) 0 then _ else _). destruct (match nrm with Some c => _ | None => false end); [eexists; reflexivity|].
  set (lg := match cb with None => _ | Some c => _ end). destruct lg as [stop log]. destruct stop; [eexists; reflexivity|]. destruct k as [|k]; [eexists; reflexivity|].
  apply IH; unfold h'; rewrite ?store_length; auto.
Qed.
Lemma pdm_loop_frame (cx cy : K -> K) k : forall it lx ly h s h' r, lx < length h -> ly < length h ->
  pdm_loop fg prox_1 prox_2 matvec rmatvec tol line_search ls_fuel ss_ratio cb max_iter cx cy k it lx ly h s = Ok (h', r) ->
  length h' = length h /\ pr_x r = load h' lx /\ (forall l, l <> lx -> l <> ly -> load h' l = load h l) /\
  (lx <> ly -> exists v, pr_x r = map cx v) /\ (lx = ly -> exists v, pr_x r = map cy v).
Proof.
  induction k as [|k IH]; intros it lx ly h s h' r Hx Hy E; [discriminate|]. cbn [pdm_loop] in E.
  apply bind_ok in E as (o & _ & E). set (yn := pd_prox_2_conj prox_2 _ _) in *. set (h1 := store (store h lx (map cx (ps_x o))) ly (map cy yn)) in *.
  assert (L1 : length h1 = length h) by (unfold h1; rewrite !store_length; reflexivity).
  assert (O1 : forall l, l <> lx -> l <> ly -> load h1 l = load h l) by (intros l A B; unfold h1; rewrite !load_store_other by auto; reflexivity).
  assert (Q1 : lx <> ly -> exists v, load h1 lx = map cx v) by (intros N; exists (ps_x o); unfold h1; rewrite load_store_other by auto; apply load_store, Hx).
  assert (Q2 : lx = ly -> exists v, load h1 lx = map cy v) by (intros ->; exists yn; apply load_store; rewrite store_length; exact Hy).
  destruct (match (if Nat.eqb (Nat.modulo it 100) 0 then _ else _) with Some c => _ | None => false end); [injection E as <- <-; cbn; auto|].
  set (lg := match cb with None => _ | Some c => _ end) in *. destruct lg as [stop log]. destruct stop; [injection E as <- <-; cbn; auto|]. destruct k as [|k]; [injection E as <- <-; cbn; auto|].
  apply IH in E; [|rewrite L1; exact Hx|rewrite L1; exact Hy]. destruct E as (E1 & E2 & E3 & E4 & E5). split; [congruence|]. split; [exact E2|].
  split; [intros l A B; rewrite E3 by assumption; apply O1; assumption|]. auto.
Qed.
End Pd.

(** ** SAGA and SVRG *)
Section Rand.
Context {K : Num}.
Variable P : problem K.
Definition distinct4 (L : saga_locs) (n : nat) : Prop :=
  sl_x L < n /\ sl_mem L < n /\ sl_avg L < n /\ sl_tmp L < n /\ sl_x L <> sl_mem L /\ sl_x L <> sl_avg L /\ sl_x L <> sl_tmp L /\ sl_mem L <> sl_avg L /\ sl_mem L <> sl_tmp L /\ sl_avg L <> sl_tmp L.
Definition own4 (L : saga_locs) (l : nat) : Prop := l = sl_x L \/ l = sl_mem L \/ l = sl_avg L \/ l = sl_tmp L.
Lemma saga_view_store L (h : heap K) (s : saga_state K) : distinct4 L (length h) ->
  saga_view L (store (store (store (store h (sl_x L) (sa_x s)) (sl_mem L) (sa_mem s)) (sl_avg L) (sa_avg s)) (sl_tmp L) (sa_tmp s)) = s.
Proof.
  intros (A1 & A2 & A3 & A4 & N1 & N2 & N3 & N4 & N5 & N6). unfold saga_view. destruct s as [a b c d]; cbn [sa_x sa_mem sa_avg sa_tmp]. f_equal.
  - rewrite !(load_store_other _ (l':=sl_x L)) by auto. apply load_store, A1.
  - rewrite !(load_store_other _ (l':=sl_mem L)) by auto. apply load_store. rewrite store_length. exact A2.
  - rewrite !(load_store_other _ (l':=sl_avg L)) by auto. apply load_store. rewrite !store_length. exact A3.
  - apply load_store. rewrite !store_length. exact A4.
Qed.
Lemma saga_forM B prox (step : K) L idx : forall h : heap K, distinct4 L (length h) ->
  match saga_epoch P B prox step idx (saga_view L h) with
  | Err e => forM idx (saga_sample_mem P B prox step L) h = Err e
  | Ok s' => exists h', forM idx (saga_sample_mem P B prox step L) h = Ok h' /\ saga_view L h' = s' /\ length h' = length h /\ forall l, ~ own4 L l -> load h' l = load h l
  end.
Proof.
  unfold saga_epoch. induction idx as [|i idx IH]; intros h Hd; cbn [forM]; [exists h; auto|].
  unfold saga_sample_mem at 1. unfold saga_sample_mem at 2. destruct (saga_sample P B prox step i (saga_view L h)) as [s1|e]; [|reflexivity]. cbn [bind].
  set (h1 := store _ _ _). assert (L1 : length h1 = length h) by (unfold h1; rewrite !store_length; reflexivity).
  assert (V1 : saga_view L h1 = s1) by (apply saga_view_store, Hd).
  specialize (IH h1 ltac:(rewrite L1; exact Hd)). rewrite V1 in IH. destruct (forM idx (saga_sample P B prox step) s1) as [s'|e]; [|exact IH].
  destruct IH as (h' & E & V & Lh & F). exists h'. split; [exact E|]. split; [exact V|]. split; [congruence|]. intros l Nl. rewrite F by exact Nl. unfold h1. unfold own4 in Nl. rewrite !load_store_other by (intros Q; apply Nl; rewrite Q; tauto). reflexivity.
Qed.
Lemma saga_loop_mem_refines B prox (step tol : K) perms L k : forall it (h : heap K) log, distinct4 L (length h) ->
  match saga_loop P B prox step tol perms k it (saga_view L h) log with
  | Err e => saga_loop_mem P B prox step tol perms L k it h = Err e
  | Ok r => exists m, saga_loop_mem P B prox step tol perms L k it h = Ok m /\ mr_x m = sl_x L /\ load (mr_heap m) (mr_x m) = er_x r /\ mr_success m = er_success r /\ mr_nit m = er_nit r /\
      length h <= length (mr_heap m) /\ forall l, l < length h -> ~ own4 L l -> load (mr_heap m) l = load h l
  end.
Proof.
  induction k as [|k IH]; intros it h log Hd; [reflexivity|]. cbn [saga_loop saga_loop_mem alloc]. set (h0 := h ++ [load h (sl_x L)]).
  assert (L0 : length h0 = S (length h)) by apply alloc_length.
  assert (D0 : distinct4 L (length h0)) by (rewrite L0; unfold distinct4 in *; intuition lia).
  assert (O0 : forall l, l < length h -> load h0 l = load h l) by (intros l Hl; apply load_alloc_old, Hl).
  assert (V0 : saga_view L h0 = saga_view L h) by (unfold saga_view; destruct Hd as (A1 & A2 & A3 & A4 & _); rewrite !O0 by assumption; reflexivity).
  pose proof (saga_forM B prox step (perms it) h0 D0) as F. rewrite V0 in F. destruct (saga_epoch P B prox step (perms it) (saga_view L h)) as [s'|e]; [|rewrite F; reflexivity].
  destruct F as (h1 & E1 & V1 & L1 & F1). rewrite E1. cbn [bind].
  assert (Nold : ~ own4 L (length h)) by (unfold own4; destruct Hd as (A1 & A2 & A3 & A4 & _); lia).
  rewrite (F1 (length h) Nold). unfold h0 at 1 2. rewrite load_alloc. change (load h (sl_x L)) with (sa_x (saga_view L h)). replace (load h1 (sl_x L)) with (sa_x s') by (rewrite <- V1; reflexivity).
  assert (Fr : forall l, l < length h -> ~ own4 L l -> load h1 l = load h l) by (intros l Hl Nl; rewrite F1 by exact Nl; apply O0, Hl).
  destruct (nltb K (vnorm1 (vsub (sa_x s') (sa_x (saga_view L h)))) tol).
  { eexists. split; [reflexivity|]. cbn [mr_x mr_heap mr_success mr_nit er_x er_success er_nit]. split; [reflexivity|]. split; [rewrite <- V1; reflexivity|]. split; [reflexivity|]. split; [reflexivity|]. split; [lia|exact Fr]. }
  destruct k as [|k].
  { eexists. split; [reflexivity|]. cbn [mr_x mr_heap mr_success mr_nit er_x er_success er_nit]. split; [reflexivity|]. split; [rewrite <- V1; reflexivity|]. split; [reflexivity|]. split; [reflexivity|]. split; [lia|exact Fr]. }
  specialize (IH (S it) h1 (s' :: log) ltac:(rewrite L1; exact D0)). rewrite V1 in IH.
  destruct (saga_loop P B prox step tol perms (S k) (S it) s' (s' :: log)) as [r|e]; [|exact IH].
  destruct IH as (m & Em & M1 & M2 & M3 & M4 & M5 & M6). exists m. split; [exact Em|]. split; [exact M1|]. split; [exact M2|]. split; [exact M3|]. split; [exact M4|]. split; [lia|].
  intros l Hl Nl. rewrite M6 by (try exact Nl; lia). apply Fr; assumption.
Qed.
Lemma svrg_forM B prox (step : K) lx lt ls gavg idx : forall h : heap K, lx < length h -> lt < length h -> lx <> lt -> ls <> lx -> ls <> lt ->
  match svrg_epoch P B prox step (load h ls) gavg idx (load h lx, load h lt) with
  | Err e => forM idx (svrg_sample_mem P B prox step lx lt ls gavg) h = Err e
  | Ok s' => exists h', forM idx (svrg_sample_mem P B prox step lx lt ls gavg) h = Ok h' /\ (load h' lx, load h' lt) = s' /\ length h' = length h /\ forall l, l <> lx -> l <> lt -> load h' l = load h l
  end.
Proof.
  unfold svrg_epoch. induction idx as [|i idx IH]; intros h Hx Ht N1 N2 N3; cbn [forM]; [exists h; auto|].
  unfold svrg_sample_mem at 1. unfold svrg_sample_mem at 2. destruct (svrg_sample P B prox step (load h ls) gavg i (load h lx, load h lt)) as [[x1 t1]|e]; [|reflexivity]. cbn [bind fst snd].
  set (h1 := store _ _ _). assert (L1 : length h1 = length h) by (unfold h1; rewrite !store_length; reflexivity).
  assert (O1 : forall l, l <> lx -> l <> lt -> load h1 l = load h l) by (intros l A C; unfold h1; rewrite !load_store_other by auto; reflexivity).
  assert (X1 : load h1 lx = x1) by (unfold h1; rewrite load_store_other by auto; apply load_store, Hx).
  assert (T1 : load h1 lt = t1) by (apply load_store; rewrite store_length; exact Ht).
  specialize (IH h1 ltac:(lia) ltac:(lia) N1 N2 N3). rewrite X1, T1, (O1 ls N2 N3) in IH. destruct (forM idx (svrg_sample P B prox step (load h ls) gavg) (x1, t1)) as [s'|e]; [|exact IH].
  destruct IH as (h' & E & V & Lh & F). exists h'. split; [exact E|]. split; [exact V|]. split; [congruence|]. intros l A C. rewrite F by assumption. apply O1; assumption.
Qed.
Lemma svrg_loop_mem_refines B prox (step tol : K) perms lx lt k : forall it (h : heap K) log, lx < length h -> lt < length h -> lx <> lt ->
  match svrg_loop P B prox step tol perms k it (load h lx) (load h lt) log with
  | Err e => svrg_loop_mem P B prox step tol perms lx lt k it h = Err e
  | Ok r => exists m, svrg_loop_mem P B prox step tol perms lx lt k it h = Ok m /\ mr_x m = lx /\ load (mr_heap m) (mr_x m) = er_x r /\ mr_success m = er_success r /\ mr_nit m = er_nit r /\
      length h <= length (mr_heap m) /\ forall l, l < length h -> l <> lx -> l <> lt -> load (mr_heap m) l = load h l
  end.
Proof.
  induction k as [|k IH]; intros it h log Hx Ht N; [reflexivity|]. cbn [svrg_loop svrg_loop_mem alloc]. set (h0 := h ++ [load h lx]).
  assert (L0 : length h0 = S (length h)) by apply alloc_length.
  assert (O0 : forall l, l < length h -> load h0 l = load h l) by (intros l Hl; apply load_alloc_old, Hl).
  assert (S0 : load h0 (length h) = load h lx) by apply load_alloc. rewrite S0. destruct (full_grad P (load h lx)) as [gavg|e]; [|reflexivity]. cbn [bind].
  pose proof (@svrg_forM B prox step lx lt (length h) gavg (perms it) h0 ltac:(lia) ltac:(lia) N ltac:(lia) ltac:(lia)) as F. rewrite S0, (O0 lx Hx), (O0 lt Ht) in F.
  destruct (svrg_epoch P B prox step (load h lx) gavg (perms it) (load h lx, load h lt)) as [[x' t']|e]; [|rewrite F; reflexivity].
  destruct F as (h1 & E1 & V1 & L1 & F1). rewrite E1. cbn [bind]. injection V1 as X1 T1. rewrite (F1 (length h)) by lia. rewrite S0, X1.
  assert (Fr : forall l, l < length h -> l <> lx -> l <> lt -> load h1 l = load h l) by (intros l Hl A C; rewrite F1 by assumption; apply O0, Hl).
  destruct (nltb K (vnorm1 (vsub x' (load h lx))) tol).
  { eexists. split; [reflexivity|]. cbn [mr_x mr_heap mr_success mr_nit er_x er_success er_nit]. split; [reflexivity|]. split; [exact X1|]. split; [reflexivity|]. split; [reflexivity|]. split; [lia|exact Fr]. }
  destruct k as [|k].
  { eexists. split; [reflexivity|]. cbn [mr_x mr_heap mr_success mr_nit er_x er_success er_nit]. split; [reflexivity|]. split; [exact X1|]. split; [reflexivity|]. split; [reflexivity|]. split; [lia|exact Fr]. }
  specialize (IH (S it) h1 ((x', t') :: log) ltac:(lia) ltac:(lia) N). rewrite X1, T1 in IH.
  destruct (svrg_loop P B prox step tol perms (S k) (S it) x' t' ((x', t') :: log)) as [r|e]; [|exact IH].
  destruct IH as (m & Em & M1 & M2 & M3 & M4 & M5 & M6). exists m. split; [exact Em|]. split; [exact M1|]. split; [exact M2|]. split; [exact M3|]. split; [exact M4|]. split; [lia|].
  intros l Hl A C. rewrite M6 by (try assumption; lia). apply Fr; assumption.
Qed.
End Rand.
