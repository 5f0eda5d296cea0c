(** * Proofs for None as a key of the active set of minimize_frank_wolfe *)
From Coq Require Import ZArith Bool List Reals Lra Lia.
From Verif Require Import Num Vec ModelConstraint ModelFrankWolfe ModelFwNone Spec RVec.
Import ListNotations.

Section K.
Context {K : Num}.
(** the weight of the key None as the code reads it *)
Definition none_weight (a : oactive K) : K := match ofind a None with Some v => v | None => n0 end.
Fixpoint one_none (a : oactive K) : Prop :=
  match a with [] => True | (None, _) :: d => ofind d None = None | (Some _, _) :: d => one_none d end.
Lemma find_set_none (a : oactive K) v : ofind (oset a None v) None = Some v.
Proof. induction a as [|[[k|] w] a IH]; cbn; auto. Qed.
Lemma find_set_some (a : oactive K) r v : ofind (oset a (Some r) v) None = ofind a None.
Proof. induction a as [|[[k|] w] a IH]; cbn; auto. destruct (rep_eqb r k); cbn; auto. Qed.
Lemma one_set (a : oactive K) k v : one_none a -> one_none (oset a k v).
Proof.
  induction a as [|[[q|] w] a IH]; cbn; intros H; [destruct k; cbn; auto| |].
  - destruct k as [r|]; cbn; [destruct (rep_eqb r q); cbn; auto|auto].
  - destruct k as [r|]; cbn; [|exact H]. rewrite find_set_some. exact H.
Qed.
Lemma one_del (a : oactive K) : one_none a -> one_none (odel a None) /\ ofind (odel a None) None = None.
Proof.
  induction a as [|[[q|] w] a IH]; cbn; intros H; [auto| |].
  - destruct (IH H) as [I1 I2]. auto.
  - split; [|exact H]. clear -H. induction a as [|[[q|] w] a IH]; cbn in *; auto. discriminate.
Qed.
Lemma get_spec (a : oactive K) k : one_none a -> forall v a', oget a k = (v, a') -> one_none a' /\ none_weight a' = none_weight a /\ (k = None -> v = none_weight a /\ ofind a' None = Some v).
Proof.
  intros H v a'. unfold oget, none_weight. destruct (ofind a k) as [w|] eqn:E; intros Q; injection Q as <- <-.
  - split; [exact H|]. split; [reflexivity|]. intros ->. rewrite E. auto.
  - split; [apply one_set, H|]. destruct k as [r|].
    + rewrite find_set_some. split; [reflexivity|discriminate].
    + rewrite find_set_none, E. auto.
Qed.
(** one update: the weight of None goes down by the step *)
Definition next_weight (w ss : K) : K := let t := nsub K w ss in if neqb K t n0 then n0 else t.
Lemma update_none (a : oactive K) r ss : one_none a ->
  if nltb K (next_weight (none_weight a) ss) n0 then update_active_set_o a (Some r) None ss = Err ValueError
  else exists a', update_active_set_o a (Some r) None ss = Ok a' /\ one_none a' /\ none_weight a' = next_weight (none_weight a) ss.
Proof.
  intros H. unfold update_active_set_o.
  destruct (oget a None) as [v1 a1] eqn:E1. destruct (get_spec a None H _ _ E1) as (H1 & W1 & _).
  destruct (oget a1 (Some r)) as [v2 a2] eqn:E2. destruct (get_spec a1 (Some r) H1 _ _ E2) as (H2 & W2 & _).
  set (a3 := oset a2 (Some r) _). assert (H3 : one_none a3) by (apply one_set, H2). assert (W3 : none_weight a3 = none_weight a2) by (unfold none_weight, a3; rewrite find_set_some; reflexivity).
  destruct (oget a3 None) as [v4 a4] eqn:E4. destruct (get_spec a3 None H3 _ _ E4) as (H4 & W4 & V4). destruct (V4 eq_refl) as [V4' _].
  assert (Q : v4 = none_weight a) by congruence. clear V4 V4'. subst v4.
  set (a5 := oset a4 None _). assert (H5 : one_none a5) by (apply one_set, H4). 
  assert (F5 : ofind a5 None = Some (nsub K (none_weight a) ss)) by (apply find_set_none).
  destruct (oget a5 None) as [v6 a6] eqn:E6. unfold oget in E6. rewrite F5 in E6. injection E6 as <- <-.
  unfold next_weight. destruct (neqb K (nsub K (none_weight a) ss) n0) eqn:Z.
  - destruct (one_del a5 H5) as [H7 F7]. unfold oget. rewrite F7. destruct (nltb K n0 n0); [reflexivity|].
    eexists. split; [reflexivity|]. split; [apply one_set, H7|]. unfold none_weight. rewrite find_set_none. reflexivity.
  - unfold oget. rewrite F5. destruct (nltb K _ n0); [reflexivity|]. exists a5. split; [reflexivity|]. split; [exact H5|]. unfold none_weight. rewrite F5. reflexivity.
Qed.
(** the weight of None along a list of steps; None when it falls below zero *)
Fixpoint weights_run (w : K) (steps : list K) : option K :=
  match steps with
  | [] => Some w
  | g :: gs => let t := next_weight w g in if nltb K t n0 then None else weights_run t gs
  end.
Lemma loop_none (fg : vec K -> K * vec K) (lm : vec K -> vec K -> result (lmo_out K)) step lipschitz tol cb :
  (forall u x o, lm u x = Ok o -> lmo_away o = None /\ lmo_fw o <> None) ->
  forall k it s a r, fs_active s = None -> one_none a -> fw_loop fg (Lmo3 (fun u x _ => lm u x)) step lipschitz tol cb k it s = Ok r ->
  exists news, fr_iters r = news ++ fs_iters s /\
    match weights_run (none_weight a) (rev (map (@fi_step K) news)) with
    | Some w' => exists a', fwo_loop fg (fun u x _ => lm u x) step lipschitz tol cb k it s a = Ok (r, a') /\ none_weight a' = w'
    | None => fwo_loop fg (fun u x _ => lm u x) step lipschitz tol cb k it s a = Err ValueError
    end.
Proof.
  intros HL. induction k as [|k IH]; intros it s a r Hs Ha; [discriminate|]. cbn [fw_loop fwo_loop call_lmo].
  destruct (lm (vopp (fs_grad s)) (fs_x s)) as [o|e] eqn:EL; [|discriminate]. cbn [bind]. destruct (HL _ _ _ EL) as [Aw Fw]. rewrite Hs.
  set (s1 := mkFwS _ _ _ _ _ _ _ _ _). destruct (nleb K _ tol) eqn:Eg.
  - intros Q. injection Q as <-. exists []. split; [reflexivity|]. cbn [map rev weights_run]. exists a. auto.
  - destruct (fw_select fg step lipschitz s1 it _ _ _ _ _) as [[[[[ss lip'] fgn] found] log1]|e]; [|discriminate]. cbn [bind].
    set (l := mkFwL _ _ _ _ _ _ _ _).
    destruct (match cb with None => (false, log1) | Some c => (c (FwCallback l :: log1), FwCallback l :: log1) end) as [stop log2]. destruct stop.
    + intros Q. injection Q as <-. exists []. split; [reflexivity|]. cbn [map rev weights_run]. exists a. auto.
    + cbn [bind]. rewrite Aw. destruct (lmo_fw o) as [r0|] eqn:Ef; [|congruence]. pose proof (update_none a r0 ss Ha) as U.
      set (it1 := mkFwI _ _ _ _ _ _ _ _ _ _). set (s3 := mkFwS _ _ _ _ _ _ _ _ _).
      destruct k as [|k].
      * intros Q. injection Q as <-. exists [it1]. split; [reflexivity|]. cbn [map rev app weights_run it1 fi_step]. 
        destruct (nltb K (next_weight (none_weight a) ss) n0); [rewrite U; reflexivity|]. destruct U as (a' & U1 & U2 & U3). rewrite U1. cbn [bind]. exists a'. auto.
      * intros Q. destruct (nltb K (next_weight (none_weight a) ss) n0) eqn:N.
        -- destruct (IH (S it) s3 [] r eq_refl I Q) as (news & E1 & _). exists (news ++ [it1]). split; [rewrite E1, <- app_assoc; reflexivity|].
           rewrite map_app, rev_app_distr. cbn [map rev app weights_run it1 fi_step]. rewrite N. rewrite U. reflexivity.
        -- destruct U as (a' & U1 & U2 & U3). destruct (IH (S it) s3 a' r eq_refl U2 Q) as (news & E1 & E2). exists (news ++ [it1]). split; [rewrite E1, <- app_assoc; reflexivity|].
           rewrite map_app, rev_app_distr. cbn [map rev app weights_run it1 fi_step]. rewrite N, <- U3, U1. cbn [bind]. exact E2.
Qed.
End K.

(** ** L1Ball.lmo_pairwise with the default x0_rep *)
Section L1.
Context {K : Num}.
Lemma l1_lmo_keys (alpha : K) u x o : l1_lmo alpha u x = Ok o -> lmo_away o = None /\ lmo_fw o <> None.
Proof.
  unfold l1_lmo. destruct (argmax _) as [j|]; [|discriminate]. cbn [bind]. destruct (get u j); [|discriminate]. cbn [bind].
  destruct (get (vopp x) j); [|discriminate]. cbn [bind]. destruct (set _ _ _); [|discriminate]. cbn [bind]. intros Q. injection Q as <-. cbn. split; [reflexivity|discriminate].
Qed.
Definition embed (a : active K) : oactive K := map (fun kv => (Some (fst kv), snd kv)) a.
Lemma strip_embed a : strip (embed a) = Some a.
Proof. induction a as [|[k v] a IH]; cbn; [reflexivity|]. fold (embed a). rewrite IH. reflexivity. Qed.
Lemma find_embed a k : ofind (embed a) (Some k) = dfind a k.
Proof. induction a as [|[k' v] a IH]; cbn; [reflexivity|]. fold (embed a). rewrite IH. reflexivity. Qed.
Lemma set_embed a k v : oset (embed a) (Some k) v = embed (dset a k v).
Proof. induction a as [|[k' v'] a IH]; cbn; [reflexivity|]. fold (embed a). rewrite IH. destruct (rep_eqb k k'); reflexivity. Qed.
Lemma del_embed a k : odel (embed a) (Some k) = embed (ddel a k).
Proof. induction a as [|[k' v'] a IH]; cbn; [reflexivity|]. fold (embed a). rewrite IH. destruct (rep_eqb k k'); reflexivity. Qed.
Lemma get_embed a k : oget (embed a) (Some k) = (fst (dget a k), embed (snd (dget a k))).
Proof. unfold oget, dget. rewrite find_embed. destruct (dfind a k); cbn [fst snd]; [reflexivity|]. rewrite set_embed. reflexivity. Qed.
Lemma update_embed a f w ss : update_active_set_o (embed a) (Some f) (Some w) ss = match update_active_set a f w ss with Ok a' => Ok (embed a') | Err e => Err e end.
Proof.
  unfold update_active_set_o, update_active_set. rewrite get_embed. destruct (dget a w) as [v1 a1]. cbn [fst snd].
  rewrite get_embed. destruct (dget a1 f) as [v2 a2]. cbn [fst snd]. rewrite set_embed, get_embed. destruct (dget (dset a2 f _) w) as [v3 a3]. cbn [fst snd].
  rewrite set_embed, get_embed. destruct (dget (dset a3 w _) w) as [v4 a4]. cbn [fst snd]. rewrite del_embed.
  replace (if neqb K v4 n0 then embed (ddel a4 w) else embed a4) with (embed (if neqb K v4 n0 then ddel a4 w else a4)) by (destruct (neqb K v4 n0); reflexivity).
  rewrite get_embed. destruct (dget _ w) as [v5 a5]. cbn [fst snd]. destruct (nltb K v5 n0); reflexivity.
Qed.
Lemma pairwise_embed alpha u x a : l1_pairwise_o alpha u x (embed a) = l1_lmo_pairwise alpha u x a.
Proof. unfold l1_pairwise_o. rewrite strip_embed. unfold l1_lmo_pairwise. destruct (l1_lmo alpha u x); reflexivity. Qed.
Lemma pairwise_keys (alpha : K) u x a o : l1_lmo_pairwise alpha u x a = Ok o -> exists f w, lmo_fw o = Some f /\ lmo_away o = Some w.
Proof.
  unfold l1_lmo_pairwise. destruct (l1_lmo alpha u x) as [o1|] eqn:E; [|discriminate]. cbn [bind]. destruct (l1_lmo_keys _ _ _ _ E) as [_ F].
  destruct (min_item u a) as [[[sg idx] w]|]; [|discriminate]. cbn [bind fst snd]. destruct (get _ idx); [|discriminate]. cbn [bind].
  destruct (set _ _ _); [|discriminate]. cbn [bind]. intros Q. injection Q as <-. cbn. destruct (lmo_fw o1); [|congruence]. eauto.
Qed.
Definition drop_active (r : fw_result K) : fw_result K := mkFwR (fr_x r) (fr_nit r) (fr_cert r) None (fr_exit r) (fr_log r) (fr_iters r) (fr_lmo r).
Lemma loop_embed fg alpha (step : fw_strategy K) lipschitz tol : (forall f, step <> FSCallable f) ->
  forall k it s s' a, fs_active s = Some a ->
  s' = mkFwS (fs_x s) (fs_f s) (fs_grad s) (fs_old s) (fs_lip s) None (fs_step s) (fs_log s) (fs_iters s) ->
  match fw_loop fg (l1_pairwise_oracle alpha) step lipschitz tol None k it s with
  | Ok r => exists a', fr_active r = Some a' /\ fwo_loop fg (l1_pairwise_o alpha) step lipschitz tol None k it s' (embed a) = Ok (drop_active r, embed a')
  | Err e => fwo_loop fg (l1_pairwise_o alpha) step lipschitz tol None k it s' (embed a) = Err e
  end.
Proof.
  intros HS. induction k as [|k IH]; intros it s s' a Hs ->; [reflexivity|]. cbn [fw_loop fwo_loop call_lmo l1_pairwise_oracle fs_x fs_f fs_grad fs_old fs_lip fs_active fs_step fs_log fs_iters].
  rewrite Hs, pairwise_embed. destruct (l1_lmo_pairwise alpha _ _ a) as [o|e] eqn:EL; [|reflexivity]. cbn [bind].
  destruct (pairwise_keys _ _ _ _ _ EL) as (f & w & Ef & Ew).
  set (s1 := mkFwS _ _ _ _ _ (Some a) _ _ _). set (s1' := mkFwS _ _ _ _ _ None _ _ _).
  destruct (nleb K _ tol).
  - exists a. split; reflexivity.
  - match goal with |- context [fw_select fg step lipschitz s1 it ?c ?l ?d ?n ?m] => assert (ES : fw_select fg step lipschitz s1 it c l d n m = fw_select fg step lipschitz s1' it c l d n m) end.
    { unfold fw_select. destruct step; try reflexivity. exfalso. eapply HS. reflexivity. }
    rewrite ES. destruct (fw_select fg step lipschitz s1' it _ _ _ _ _) as [[[[[ss lip'] fgn] found] log1]|e]; [|reflexivity]. cbn [bind].
    rewrite Ef, Ew, update_embed. destruct (update_active_set a f w ss) as [a'|e]; [|reflexivity]. cbn [bind].
    destruct k as [|k]; [exists a'; split; reflexivity|]. apply (IH (S it) _ _ a'); reflexivity.
Qed.
Lemma pairs_partial : forall fg alpha (step : fw_strategy K) lipschitz tol max_iter r0 x0, (forall f, step <> FSCallable f) ->
  match minimize_fw fg (l1_pairwise_oracle alpha) step lipschitz tol max_iter None (Pairwise r0) x0 with
  | Ok r => exists (r' : fw_result K) a', fr_active r = Some a' /\ minimize_fw_pairwise fg (l1_pairwise_o alpha) step lipschitz tol max_iter None (Some r0) x0 = Ok (r', map (fun kv => (Some (fst kv), snd kv)) a') /\
      fr_x r' = fr_x r /\ fr_nit r' = fr_nit r /\ fr_cert r' = fr_cert r /\ fr_iters r' = fr_iters r
  | Err e => minimize_fw_pairwise fg (l1_pairwise_o alpha) step lipschitz tol max_iter None (Some r0) x0 = Err e
  end.
Proof.
  intros fg alpha step lipschitz tol max_iter r0 x0 HS. unfold minimize_fw, minimize_fw_pairwise. destruct (nltb K tol n0); [reflexivity|]. cbn [bind].
  destruct (fg x0) as [f0 g0]. pose proof (loop_embed fg alpha step lipschitz tol HS max_iter 0 (mkFwS x0 f0 g0 None lipschitz (Some [(r0, n1)]) None [FwEval x0] []) _ [(r0, n1)] eq_refl eq_refl) as L.
  destruct (fw_loop _ _ _ _ _ _ _ _ _) as [r|e]; [|exact L]. destruct L as (a' & L1 & L2). exists (drop_active r), a'. split; [exact L1|]. split; [exact L2|]. repeat split.
Qed.
End L1.

(** ** the theorems *)
Lemma argmax_from_bound {K : Num} (v : vec K) : forall best bi i N, (bi < N)%nat -> (i + length v <= N)%nat -> (argmax_from best bi i v < N)%nat.
Proof.
  induction v as [|x v IH]; intros best bi i N Hb Hi; cbn [argmax_from]; [exact Hb|]. cbn [length] in Hi. destruct (argmax_better x best); apply IH; lia.
Qed.
Lemma l1_lmo_defined {K : Num} (alpha : K) (g x : vec K) : x <> [] -> length g = length x -> exists o, l1_lmo alpha (vopp g) x = Ok o.
Proof.
  intros Hx Hg. unfold l1_lmo. set (u := vopp g). assert (Lu : length u = length x) by (unfold u, vopp; rewrite map_length; exact Hg).
  assert (A : exists i, argmax (vabs u) = Ok i /\ (i < length x)%nat).
  { destruct u as [|u0 u']; [destruct x; [congruence|discriminate Lu]|]. cbn [vabs map argmax]. eexists. split; [reflexivity|].
    apply argmax_from_bound; rewrite <- Lu; cbn [length]; [lia|]. rewrite map_length. lia. }
  destruct A as (i & -> & Hi). cbn [bind]. rewrite (get_ok u i n0) by (rewrite Lu; exact Hi). cbn [bind].
  assert (Lo : length (vopp x) = length x) by (unfold vopp; apply map_length).
  rewrite (get_ok (vopp x) i n0) by (rewrite Lo; exact Hi). cbn [bind]. rewrite set_ok by (rewrite Lo; exact Hi). cbn [bind]. eexists. reflexivity.
Qed.
Lemma main_C127_refuted : forall (K : Num) (fg : vec K -> K * vec K) (alpha : K) (step : fw_strategy K) (lipschitz : option K) (tol : K) (max_iter : nat) (cb : option (list (fw_event K) -> bool)) (x0 : vec K),
  nltb K tol n0 = false -> (0 < max_iter)%nat -> x0 <> [] -> length (snd (fg x0)) = length x0 ->
  minimize_fw_pairwise fg (l1_pairwise_o alpha) step lipschitz tol max_iter cb None x0 = Err TypeError.
Proof.
  intros K fg alpha step lipschitz tol max_iter cb x0 Ht Hm Hx Hg. unfold minimize_fw_pairwise. rewrite Ht. destruct (fg x0) as [f0 g0]. cbn [snd] in Hg.
  destruct max_iter as [|k]; [lia|]. cbn [fwo_loop fs_grad fs_x]. unfold l1_pairwise_o at 1. cbn [strip].
  assert (E : exists o, l1_lmo alpha (vopp g0) x0 = Ok o).
  { apply l1_lmo_defined; assumption. }
  destruct E as [o ->]. reflexivity.
Qed.
Lemma main_C127_pairs_partial : forall (K : Num) (fg : vec K -> K * vec K) (alpha : K) (step : fw_strategy K) (lipschitz : option K) (tol : K) (max_iter : nat) (r0 : rep K) (x0 : vec K), (forall f, step <> FSCallable f) ->
  match minimize_fw fg (l1_pairwise_oracle alpha) step lipschitz tol max_iter None (Pairwise r0) x0 with
  | Ok r => exists (r' : fw_result K) a', fr_active r = Some a' /\ minimize_fw_pairwise fg (l1_pairwise_o alpha) step lipschitz tol max_iter None (Some r0) x0 = Ok (r', map (fun kv => (Some (fst kv), snd kv)) a') /\
      fr_x r' = fr_x r /\ fr_nit r' = fr_nit r /\ fr_cert r' = fr_cert r /\ fr_iters r' = fr_iters r
  | Err e => minimize_fw_pairwise fg (l1_pairwise_o alpha) step lipschitz tol max_iter None (Some r0) x0 = Err e
  end.
Proof. intros K. apply pairs_partial. Qed.

Local Open Scope R_scope.
Lemma Rsum_reverse : forall l : list R, Rsum (rev l) = Rsum l.
Proof. induction l as [|a l IH]; cbn [rev Rsum]; [reflexivity|]. rewrite Rsum_app, IH. cbn [Rsum]. lra. Qed.
Lemma weights_R : forall (gs : list R) (w : R), Forall (fun g => 0 <= g) gs -> 0 <= w ->
  (Rsum gs <= w -> weights_run (K:=RN) w gs = Some (w - Rsum gs)) /\ (w < Rsum gs -> weights_run (K:=RN) w gs = None).
Proof.
  induction gs as [|g gs IH]; intros w Hg Hw; cbn [weights_run Rsum].
  - split; [intros _; f_equal; lra|lra].
  - assert (E : next_weight (K:=RN) w g = w - g) by (unfold next_weight; rn; destruct (Reqb_spec (w - g) 0); lra).
    rewrite E. rn. pose proof (Forall_inv Hg) as G. cbn beta in G.
    assert (P : 0 <= Rsum gs). { assert (Hg' := Forall_inv_tail Hg). clear -Hg'. induction Hg' as [|a l Ha _ IH]; cbn; lra. }
    destruct (Rltb_spec (w - g) 0) as [L|L]; [split; [lra|reflexivity]|].
    destruct (IH (w - g) (Forall_inv_tail Hg) ltac:(lra)) as [I1 I2]. split; intros H; [rewrite I1 by lra; f_equal; lra|apply I2; lra].
Qed.
Lemma main_C127_vanilla_oracle_partial : forall (fg : list R -> R * list R) (alpha : R) (step : fw_strategy RN) (lipschitz : option R) (tol : R) (max_iter : nat) (cb : option (list (fw_event RN) -> bool)) (x0_rep : okey RN) (x0 : list R) (r : fw_result RN),
  minimize_fw (K:=RN) fg (l1_oracle (K:=RN) alpha) step lipschitz tol max_iter cb Vanilla x0 = Ok r ->
  Forall (fun i : fw_iter RN => 0 <= fi_step i) (fr_iters r) ->
  let w := match x0_rep with None => 1 | Some _ => 0 end in
  (Rsum (map (fun i : fw_iter RN => fi_step i : R) (fr_iters r)) <= w ->
   exists a, minimize_fw_pairwise (K:=RN) fg (l1_lmo_o (K:=RN) alpha) step lipschitz tol max_iter cb x0_rep x0 = Ok (r, a)) /\
  (w < Rsum (map (fun i : fw_iter RN => fi_step i : R) (fr_iters r)) ->
   minimize_fw_pairwise (K:=RN) fg (l1_lmo_o (K:=RN) alpha) step lipschitz tol max_iter cb x0_rep x0 = Err ValueError).
Proof.
  intros fg alpha step lipschitz tol max_iter cb x0_rep x0 r Hr Hs w. unfold minimize_fw in Hr. unfold minimize_fw_pairwise. destruct (nltb RN tol n0); [discriminate|]. cbn [bind] in Hr.
  destruct (fg x0) as [f0 g0].
  match type of Hr with fw_loop _ _ _ _ _ _ _ _ ?st = _ => set (s0 := st) in * end.
  destruct (loop_none (K:=RN) fg (l1_lmo (K:=RN) alpha) step lipschitz tol cb (l1_lmo_keys (K:=RN) alpha) max_iter 0%nat s0 [(x0_rep, 1 : RN)] r eq_refl ltac:(destruct x0_rep; cbn; auto) Hr) as (news & E1 & E2).
  cbn [fs_iters s0] in E1. rewrite app_nil_r in E1. subst news.
  assert (Ew : none_weight (K:=RN) [(x0_rep, 1 : RN)] = w) by (destruct x0_rep; reflexivity). rewrite Ew in E2.
  assert (Hw : 0 <= w) by (unfold w; destruct x0_rep; lra).
  set (gs := rev (map (fun i : fw_iter RN => fi_step i : R) (fr_iters r)) : list R) in *.
  assert (Hg : Forall (fun g => 0 <= g) gs) by (apply Forall_rev, Forall_map; exact Hs).
  assert (ES : Rsum gs = Rsum (map (fun i : fw_iter RN => fi_step i : R) (fr_iters r))).
  { apply Rsum_reverse. }
  change (rev (map (@fi_step RN) (fr_iters r))) with gs in E2.
  rewrite <- ES. destruct (weights_R gs w Hg Hw) as [W1 W2]. split; intros H.
  - rewrite (W1 H) in E2. destruct E2 as (a' & E2 & _). exists a'. exact E2.
  - rewrite (W2 H) in E2. exact E2.
Qed.
Lemma loop_sublinear (fg : list R -> R * list R) (lm : lmo_fun RN) lipschitz tol cb : forall k it (s : fw_state RN) r,
  fw_loop (K:=RN) fg lm FSSublinear lipschitz tol cb k it s = Ok r ->
  exists news, fr_iters r = news ++ fs_iters s /\ rev (map (fun i : fw_iter RN => fi_step i : R) news) = map (fun j => 2 / (INR (it + j) + 2)) (seq 0 (length news)).
Proof.
  induction k as [|k IH]; intros it s r; [discriminate|]. cbn [fw_loop]. destruct (call_lmo lm _ _ _) as [o|]; [|discriminate]. cbn [bind].
  destruct (nleb RN _ tol).
  - intros Q. injection Q as <-. exists []. split; reflexivity.
  - cbn [fw_select bind]. 
    match goal with |- context [match cb with None => (false, ?l1) | Some c => _ end] => destruct (match cb with None => (false, l1) | Some c => (c (FwCallback _ :: l1), FwCallback _ :: l1) end) as [stop log2] end.
    destruct stop.
    + intros Q. injection Q as <-. exists []. split; reflexivity.
    + match goal with |- context [bind ?A _] => destruct A as [act|] end; [|discriminate]. cbn [bind].
      assert (E2 : @eq R (ndiv RN (nofZ RN 2) (nofnat (K:=RN) (it + 2))) (2 / (INR (it + 0) + 2))) by (rewrite nofnat_R; rn; rewrite plus_INR, Nat.add_0_r; cbn [INR]; f_equal; f_equal; lra).
      set (it1 := mkFwI _ _ _ _ _ _ _ _ _ _). set (s3 := mkFwS _ _ _ _ _ _ _ _ _). 
      destruct k as [|k].
      * intros Q. injection Q as <-. exists [it1]. split; [reflexivity|]. cbn [map rev app seq length it1 fi_step]. f_equal. exact E2.
      * intros Q. destruct (IH (S it) s3 r Q) as (news & E1 & E3). exists (news ++ [it1]). split; [rewrite E1, <- app_assoc; reflexivity|].
        rewrite map_app, rev_app_distr, E3, app_length, Nat.add_1_r. cbn [map rev app seq it1 fi_step]. f_equal; [exact E2|].
        rewrite <- seq_shift, map_map. apply map_ext. intros j. f_equal. f_equal. f_equal. lia.
Qed.
Lemma main_C127_sublinear_partial : forall (fg : list R -> R * list R) (alpha : R) (lipschitz : option R) (tol : R) (max_iter : nat) (cb : option (list (fw_event RN) -> bool)) (x0_rep : okey RN) (x0 : list R) (r : fw_result RN),
  minimize_fw (K:=RN) fg (l1_oracle (K:=RN) alpha) FSSublinear lipschitz tol max_iter cb Vanilla x0 = Ok r ->
  (match x0_rep with None => 2 | Some _ => 1 end <= length (fr_iters r))%nat ->
  minimize_fw_pairwise (K:=RN) fg (l1_lmo_o (K:=RN) alpha) FSSublinear lipschitz tol max_iter cb x0_rep x0 = Err ValueError.
Proof.
  intros fg alpha lipschitz tol max_iter cb x0_rep x0 r Hr Hn.
  assert (HL : exists n, (match x0_rep with None => 2 | Some _ => 1 end <= n)%nat /\ rev (map (fun i : fw_iter RN => fi_step i : R) (fr_iters r)) = map (fun j => 2 / (INR j + 2)) (seq 0 n)).
  { assert (Hr' := Hr). unfold minimize_fw in Hr'. destruct (nltb RN tol n0); [discriminate|]. cbn [bind] in Hr'. destruct (fg x0) as [f0 g0].
    destruct (loop_sublinear _ _ _ _ _ _ _ _ _ Hr') as (news & E1 & E2). cbn [fs_iters] in E1. rewrite app_nil_r in E1. subst news. exists (length (fr_iters r)). split; [exact Hn|exact E2]. }
  destruct HL as (n & Hn' & HL). assert (HL' := f_equal (@rev R) HL). rewrite rev_involutive in HL'.
  assert (Ppos : forall l, Forall (fun g => 0 <= g) (map (fun j => 2 / (INR j + 2)) l)).
  { intros l. apply Forall_map, Forall_forall. intros j _. pose proof (pos_INR j). apply Rmult_le_pos; [lra|left; apply Rinv_0_lt_compat; lra]. }
  assert (HF : Forall (fun g => 0 <= g) (map (fun i : fw_iter RN => fi_step i : R) (fr_iters r))) by (rewrite HL'; apply Forall_rev, Ppos).
  destruct (main_C127_vanilla_oracle_partial fg alpha FSSublinear lipschitz tol max_iter cb x0_rep x0 r Hr) as [_ W]; [rewrite Forall_map in HF; exact HF|]. apply W.
  rewrite HL'. 
  rewrite Rsum_reverse. assert (PS : forall l, 0 <= Rsum (map (fun j => 2 / (INR j + 2)) l)).
  { intros l. pose proof (Ppos l) as Q. induction Q as [|a m Ha _ IH]; cbn; lra. }
  destruct x0_rep; destruct n as [|[|n]]; try lia; cbn [seq map Rsum INR]; [lra|pose proof (PS (seq 2 n)); cbn [seq map Rsum INR] in *|pose proof (PS (seq 2 n)); cbn [seq map Rsum INR] in *]; lra.
Qed.
