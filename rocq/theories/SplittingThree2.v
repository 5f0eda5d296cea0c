(** * minimize_three_split: control flow, line search, convergence with a fixed step *)
From Coq Require Import ZArith QArith Reals List Bool Lra Lia Psatz.
From Verif Require Import Num Vec Spec RVec ConvexFacts ModelUtils ModelSplitting SplittingFacts ProxGradFacts ProxGradMain SplittingMain SplittingThree.
Import ListNotations.
Open Scope R_scope.

Lemma full_log_suffix {K : Num} (l : list (ts_iter K)) : forall newer e rest,
  ts_full_log l = newer ++ e :: rest ->
  exists newer' i older, l = newer' ++ i :: older /\ e :: rest = ts_full_log (i :: older) /\
    (newer <> [] -> newer' <> []) /\ length newer = length newer'.
Proof.
  induction l as [|j l IH]; intros newer e rest H; cbn [ts_full_log] in H; [destruct newer; discriminate|].
  destruct newer as [|a newer].
  - cbn in H. exists [], j, l. split; [reflexivity|]. split; [symmetry; exact H|]. split; auto.
  - cbn in H. injection H as _ H. destruct (IH _ _ _ H) as (nw & i & old & E1 & E2 & _ & E3).
    exists (j :: nw), i, old. rewrite E1. split; auto. split; auto. split; [discriminate|]. cbn; auto.
Qed.
Lemma full_log_length {K : Num} (l : list (ts_iter K)) : length (ts_full_log l) = length l.
Proof. induction l; cbn; auto. Qed.

Lemma main_C51_contract : forall (K : Num) (fg : vec K -> K * vec K) (x0 : vec K) p1 p2 (tol : K) max_iter cb ls st max_bt
  (factor : K) hL (r : ts_result K),
  minimize_three_split fg x0 p1 p2 tol max_iter cb ls st max_bt factor hL = Ok r ->
  (0 < max_bt)%nat /\ (tr_nit r < max_iter)%nat /\ length (tr_iters r) = S (tr_nit r) /\
  (tr_success r = true ->
     (0 < tr_nit r)%nat /\ nltb K (tr_cert r) tol = true /\ forall c, cb = Some c -> c (tr_log r) = false) /\
  (tr_success r = false ->
     (exists c, cb = Some c /\ c (tr_log r) = true) \/
     (S (tr_nit r) = max_iter /\ (tr_nit r = 0%nat \/ nltb K (tr_cert r) tol = false))) /\
  (* the callback is called once per iteration, with the iterate of that iteration, and the first
     False stops the run *)
  (forall c, cb = Some c -> length (tr_log r) = S (tr_nit r) /\
     (exists l rest, tr_log r = l :: rest /\ tsl_x l = tr_x r /\ tsl_it l = tr_nit r /\ tsl_cert l = tr_cert r) /\
     forall newer l rest, tr_log r = newer ++ l :: rest -> newer <> [] -> c (l :: rest) = false) /\
  (* no earlier iteration met the tolerance *)
  (forall newer i older, tr_iters r = newer ++ i :: older -> newer <> [] -> older <> [] -> nltb K (ti_cert i) tol = false).
Proof.
  intros K fg x0 p1 p2 tol max_iter cb ls st max_bt factor hL r H.
  destruct (ts_solver_good _ _ _ _ _ _ _ _ _ _ _ _ _ H) as [Hb [(i & older & Ei & Ex & Ec & Est & En & Hq & Hex) Hch Hlog Hn]].
  split; [exact Hb|]. split; [exact Hn|]. split; [rewrite Ei; cbn; lia|].
  split; [|split; [|split]].
  - intros E. destruct (tr_exit r); destruct Hex as [Es Hex]; rewrite Es in E; try discriminate.
    rewrite Ec. destruct Hex as (A & B & C). auto.
  - intros E. destruct (tr_exit r); destruct Hex as [Es Hex]; rewrite Es in E; try discriminate; [left; exact Hex|right].
    destruct Hex as (A & B & _). split; [exact A|]. rewrite Ec, En. apply andb_false_iff in B.
    destruct B as [B|B]; [left|right; exact B]. apply Nat.ltb_ge in B. lia.
  - intros c Hc. rewrite Hc in Hlog. split; [rewrite Hlog, full_log_length, Ei; cbn; lia|]. split.
    + exists (ts_local (length older) i), (ts_full_log older). rewrite Hlog, Ei. split; [reflexivity|]. cbn. rewrite Ex, En, Ec. auto.
    + intros newer l rest E Hne. rewrite Hlog in E. destruct (full_log_suffix _ _ _ _ E) as (nw & j & old & E1 & E2 & Hnn & _).
      specialize (Hnn Hne). rewrite Ei in E1. destruct nw as [|a nw]; [contradiction|]. cbn in E1. injection E1 as _ E1.
      rewrite E2. apply (ts_quiet_split _ _ _ nw j old E1 Hq). exact Hc.
  - intros newer j old E Hne Hold. rewrite Ei in E. destruct newer as [|a nw]; [contradiction|]. cbn in E. injection E as _ E.
    destruct (ts_quiet_split _ _ _ nw j old E Hq) as (A & _). apply andb_false_iff in A. destruct A as [A|A]; auto.
    apply Nat.ltb_ge in A. destruct old; [contradiction|cbn in A; lia].
Qed.

Lemma ts_loop_ok {K : Num} (fg : vec K -> K * vec K) p1 p2 tol ls max_bt factor hL cb k : forall it s,
  exists r, ts_loop fg p1 p2 tol ls max_bt factor hL cb (S k) it s = Ok r.
Proof.
  induction k as [|k IH]; intros it s; cbn [ts_loop];
  destruct (match cb with None => _ | Some _ => _ end) as [stop log]; destruct stop; [eauto| |eauto|];
  destruct (Nat.ltb 0 it && _); eauto.
Qed.
Lemma main_C51_errors : forall (K : Num) (fg : vec K -> K * vec K) (x0 : vec K) p1 p2 (tol : K) max_iter cb ls st max_bt
  (factor : K) hL,
  let run := minimize_three_split fg x0 p1 p2 tol max_iter cb ls st max_bt factor hL in
  (max_bt = 0%nat -> run = Err ValueError) /\
  ((0 < max_bt)%nat -> max_iter = 0%nat -> run = Err UnboundLocalError) /\
  ((0 < max_bt)%nat -> (0 < max_iter)%nat -> exists r, run = Ok r).
Proof.
  intros. unfold run, minimize_three_split. split; [|split].
  - intros ->. reflexivity.
  - intros Hb ->. destruct (Nat.eqb_spec max_bt 0); [lia|]. destruct st; reflexivity.
  - intros Hb Hi. destruct (Nat.eqb_spec max_bt 0); [lia|]. destruct max_iter; [lia|].
    destruct st; unfold three_split_from; apply ts_loop_ok.
Qed.

(** relational content of one iteration, for every arithmetic *)
Lemma ts_body_spec {K : Num} (fg : vec K -> K * vec K) (p1 p2 : vec K -> K -> vec K) ls max_bt factor hL (z u : vec K) (s : K) :
  (0 < max_bt)%nat ->
  let i := ts_body fg p1 p2 ls max_bt factor hL (mkTsS z u s [] []) in
  let fk := fst (fg z) in let g := snd (fg z) in
  let excess t x := nsub K (fst (fg x)) (nadd K (nadd K fk (vdot g (vsub x z))) (ndiv K (nsq (vnorm (vsub x z))) (nmul K (nofZ K 2) t))) in
  let trial t := p1 (vsub z (vscale t (vadd u g))) t in
  ti_z i = z /\ ti_u i = u /\ ti_in i = s /\
  ti_ls i = nltb K (nlit 1 10000000) (vnorm (vsub (trial s) z)) && ls /\
  ti_x i = trial (ti_prox i) /\
  ti_znext i = p2 (vadd (ti_x i) (vscale (ti_step i) u)) (ti_step i) /\
  ti_unext i = vadd u (vdivs (vsub (ti_x i) (ti_znext i)) (ti_step i)) /\
  ti_cert i = ndiv K (vnorm (vsub (ti_x i) z)) (ti_step i) /\
  (ti_ls i = false -> ti_prox i = s /\ ti_step i = s /\ ti_out i = s) /\
  (ti_ls i = true -> exists j, (j < max_bt)%nat /\ ti_prox i = Nat.iter j (fun t => nmul K t factor) s /\
     (forall m, (m < j)%nat -> let t := Nat.iter m (fun t => nmul K t factor) s in nleb K (excess t (trial t)) ls_EPS = false) /\
     (if ti_found i then nleb K (excess (ti_prox i) (ti_x i)) ls_EPS = true /\ ti_step i = ti_prox i
      else nleb K (excess (ti_prox i) (ti_x i)) ls_EPS = false /\ S j = max_bt /\ ti_step i = nmul K (ti_prox i) factor) /\
     ti_out i = ts_update hL true (ti_step i) (excess (ti_prox i) (ti_x i))).
Proof.
  intros Hb i fk g excess trial. unfold i, ts_body. cbn [ts_z ts_u ts_step].
  unfold trial, fk, g in *. destruct (fg z) as [fk' g'] eqn:Efg. cbn [fst snd] in *.
  change (ts_prox1 p1 z u g' s) with (p1 (vsub z (vscale s (vadd u g'))) s).
  destruct (nltb K (nlit 1 10000000) _ && ls) eqn:E.
  - destruct (ts_search_spec fg p1 factor (Nat.pred max_bt) z u fk' g' s) as (j & Hj & Hp & Hx & Hn & Ht & Hfo & Hi).
    cbn [ti_z ti_u ti_in ti_ls ti_x ti_prox ti_step ti_znext ti_unext ti_cert ti_found ti_out].
    rewrite Hn at 1.
    repeat (split; [first [reflexivity|exact Hx]|]). split; [discriminate|]. intros _.
    exists j. split; [lia|]. split; [exact Hp|]. split; [exact Hi|].
    rewrite Hn in Ht. unfold excess. rewrite <- Ht. split; [|reflexivity].
    destruct (tl_found _); [exact Hfo|]. destruct Hfo as (A & B & C). split; [exact A|]. split; [lia|exact B].
  - cbn [ti_z ti_u ti_in ti_ls ti_x ti_prox ti_step ti_znext ti_unext ti_cert ti_found ti_out tl_x tl_prox tl_step tl_norm tl_found tl_tol].
    repeat (split; [reflexivity|]). split; [auto|discriminate].
Qed.

Lemma main_C51_trace : forall (K : Num) (fg : vec K -> K * vec K) (x0 : vec K) p1 p2 (tol : K) max_iter cb ls st max_bt
  (factor : K) hL (r : ts_result K),
  minimize_three_split fg x0 p1 p2 tol max_iter cb ls st max_bt factor hL = Ok r ->
  let prox1 x s := match p1 with Some p => p x s | None => x end in
  let prox2 x s := match p2 with Some p => p x s | None => x end in
  let s0 := match st with Some s => s | None => ndiv K n1 (init_lipschitz fg x0) end in
  let search_on := match st with Some _ => ls | None => true end in
  forall newer i older, tr_iters r = newer ++ i :: older ->
  let z := ti_z i in let u := ti_u i in let fk := fst (fg z) in let g := snd (fg z) in
  let excess t x := nsub K (fst (fg x)) (nadd K (nadd K fk (vdot g (vsub x z))) (ndiv K (nsq (vnorm (vsub x z))) (nmul K (nofZ K 2) t))) in
  let trial t := prox1 (vsub z (vscale t (vadd u g))) t in
  match older with
  | [] => z = prox2 x0 s0 /\ ti_in i = s0 /\ u = vzeros (length (prox1 (vsub z (vscale s0 g)) s0))
  | p :: _ => z = ti_znext p /\ u = ti_unext p /\ ti_in i = ti_out p
  end /\
  ti_ls i = nltb K (nlit 1 10000000) (vnorm (vsub (trial (ti_in i)) z)) && search_on /\
  ti_x i = trial (ti_prox i) /\
  ti_znext i = prox2 (vadd (ti_x i) (vscale (ti_step i) u)) (ti_step i) /\
  ti_unext i = vadd u (vdivs (vsub (ti_x i) (ti_znext i)) (ti_step i)) /\
  ti_cert i = ndiv K (vnorm (vsub (ti_x i) z)) (ti_step i) /\
  (ti_ls i = false -> ti_prox i = ti_in i /\ ti_step i = ti_in i /\ ti_out i = ti_in i) /\
  (ti_ls i = true -> exists j, (j < max_bt)%nat /\ ti_prox i = Nat.iter j (fun t => nmul K t factor) (ti_in i) /\
     (forall m, (m < j)%nat -> let t := Nat.iter m (fun t => nmul K t factor) (ti_in i) in
        nleb K (excess t (trial t)) (nlit 1 4503599627370496) = false) /\
     (if ti_found i then nleb K (excess (ti_prox i) (ti_x i)) (nlit 1 4503599627370496) = true /\ ti_step i = ti_prox i
      else nleb K (excess (ti_prox i) (ti_x i)) (nlit 1 4503599627370496) = false /\ S j = max_bt /\
           ti_step i = nmul K (ti_prox i) factor) /\
     (hL = None -> ti_out i = ti_step i)).
Proof.
  intros K fg x0 p1 p2 tol max_iter cb ls st max_bt factor hL r H prox1 prox2 s0 search_on newer i older Ei z u fk g excess trial.
  destruct (ts_solver_good _ _ _ _ _ _ _ _ _ _ _ _ _ H) as [Hb [_ Hch _ _]].
  assert (Eq1 : match p1 with Some p => p | None => fun x _ => x end = prox1) by (unfold prox1; destruct p1; reflexivity).
  assert (Eq2 : match p2 with Some p => p | None => fun x _ => x end = prox2) by (unfold prox2; destruct p2; reflexivity).
  cbv zeta in Hch. rewrite Eq1, Eq2 in Hch. fold s0 search_on in Hch.
  destruct (ts_chain_split _ _ _ _ _ _ _ _ _ _ _ _ _ _ Ei Hch) as [Hi _].
  destruct (ts_prev _ _ _ older) as [[zp up] sp] eqn:Ep.
  pose proof (ts_body_spec fg prox1 prox2 search_on max_bt factor hL zp up sp Hb) as B. cbv zeta in B. rewrite <- Hi in B.
  destruct B as (Bz & Bu & Bs & Bl & Bx & Bzn & Bun & Bc & Bf & Bt).
  unfold trial, excess, fk, g, z, u. rewrite Bz, Bu, Bs in *.
  split; [|do 6 (split; [assumption|])].
  - destruct older as [|p older]; cbn [ts_prev] in Ep; injection Ep as <- <- <-; auto.
  - intros E. destruct (Bt E) as (j & A1 & A2 & A3 & A4 & A5). exists j. do 4 (split; [assumption|]).
    intros Eh. rewrite A5, Eh. reflexivity.
Qed.
