(** * Pairwise Frank-Wolfe with step='DR' in binary64 always returns, with weights not below zero *)
From Coq Require Import ZArith Lia Bool List.
From Coq Require Import Floats.SpecFloat.
From Verif Require Import Num Vec RVec ModelConstraint ModelFrankWolfe FrankWolfeFacts FloatBase FloatPair FloatPair2.
Import ListNotations.

Lemma cert_pp (cert tol : F64) : nltb F64 tol n0 = false -> nisnan tol = false -> nleb F64 cert tol = false -> pp cert.
Proof.
  destruct cert as [[]|[]| |[] m e], tol as [[]|[]| |[] m' e']; intros A B C; try exact I; try reflexivity;
    try (vm_compute in A; discriminate A); try (vm_compute in B; discriminate B); try (vm_compute in C; discriminate C).
Qed.
Lemma minpy_le (c w : F64) : nltb F64 w (nminpy c w) = false.
Proof.
  unfold nminpy. destruct (nltb F64 w c) eqn:E; [|exact E].
  destruct w as [[]|[]| |[] m e]; try reflexivity; cbn; rewrite Z.compare_refl, Pos.compare_refl; reflexivity.
Qed.
Lemma minpy_datum (c w : F64) : datum c -> datum w -> datum (nminpy c w).
Proof. intros. unfold nminpy. destruct (nltb F64 w c); assumption. Qed.
Lemma minpy_nn (c w : F64) : nn c -> nn w -> nn (nminpy c w).
Proof. intros. unfold nminpy. destruct (nltb F64 w c); assumption. Qed.
Lemma vnorm_datum (v : vec F64) : Forall datum v -> datum (vnorm v).
Proof. intros. unfold vnorm. apply sqrt_datum, vdot_datum; assumption. Qed.

(** the active set shown in a log entry *)
Definition act_of (e : fw_event F64) : option fdict :=
  match e with FwCallback l => fl_active l | FwStep l => fl_active l | FwEval _ => None end.
Definition nonneg_set (n : nat) (d : fdict) : Prop :=
  d <> [] /\ NoDup (map fst d) /\ Forall (fun kv => (snd (fst kv) < n)%nat /\ nltb F64 (snd kv) n0 = false) d.
Lemma okd_nonneg n d : okd n d -> d <> [] -> nonneg_set n d.
Proof.
  intros [A B] C. split; [exact C|]. split; [exact A|]. eapply Forall_impl; [|exact B].
  intros kv [[_ G] [_ N]]. split; [exact G|apply nn_ltb; exact N].
Qed.

Section Run.
Variables (n : nat) (alpha L0 tol : F64) (fg : vec F64 -> F64 * vec F64) (cb : option (list (fw_event F64) -> bool)).
Hypotheses (Hn : (0 < n)%nat) (Da : datum alpha) (DL : datum L0) (PL : pp L0).
Hypotheses (Ht : nltb F64 tol n0 = false) (Htn : nisnan tol = false).
Hypothesis Hfg : forall x, length x = n -> Forall datum x -> length (snd (fg x)) = n /\ num (snd (fg x)).

Definition logok (log : list (fw_event F64)) : Prop := Forall (fun e => match act_of e with Some d => nonneg_set n d | None => True end) log.
Definition inv (s : fw_state F64) : Prop :=
  length (fs_x s) = n /\ Forall datum (fs_x s) /\ length (fs_grad s) = n /\ num (fs_grad s) /\ fs_lip s = Some L0 /\
  (exists d, fs_active s = Some d /\ okd n d /\ d <> []) /\ logok (fs_log s).
Definition good_result (r : fw_result F64) : Prop := (exists d, fr_active r = Some d /\ nonneg_set n d) /\ length (fr_x r) = n /\ logok (fr_log r).

Lemma finish_ok s it cert o nxt ex : (exists d, fs_active s = Some d /\ okd n d /\ d <> []) -> length (fs_x s) = n -> logok (fs_log s) ->
  good_result (fw_finish cb s it cert o nxt ex).
Proof.
  intros (d & Ed & Od & Nd) Hx Hl. unfold good_result, fw_finish. cbn [fr_active fr_x fr_log].
  split; [exists d; split; [exact Ed|apply okd_nonneg; assumption]|]. split; [exact Hx|].
  destruct cb; [|exact Hl]. constructor; [|exact Hl]. cbn [act_of fl_active]. rewrite Ed. apply okd_nonneg; assumption.
Qed.

Lemma loop_ok : forall k it s, inv s ->
  exists r, fw_loop fg (l1_pairwise_oracle alpha) (FSDR (K:=F64)) (Some L0) tol cb (S k) it s = Ok r /\ good_result r.
Proof.
  induction k as [|k IH]; intros it s (Lx & Dx & Lg & Ng & El & (d & Ed & Od & Nd) & Hlog); rewrite fw_loop_unfold;
    rewrite Ed; cbn [call_lmo l1_pairwise_oracle];
    destruct (pairwise_total n alpha (fs_grad s) (fs_x s) d Hn Lg Lx Ng Dx Da Od Nd) as (dir & fw & aw & w & Eo & Ldir & Ddir & Gf & Ga & Fw);
    rewrite Eo; cbn [bind]; cbv zeta; cbn [lmo_dir lmo_max_step];
    (destruct (nleb F64 (fw_cert dir (fs_grad s)) tol) eqn:Ec;
      [eexists; split; [reflexivity|]; apply finish_ok; [exists d; auto|exact Lx|exact Hlog]|]);
    unfold cur_lip; rewrite El; unfold fw_select; cbn [bind with_lip fs_x fs_log];
    set (ss := nminpy (ndiv F64 (fw_cert dir (fs_grad s)) (nmul F64 (nsq (vnorm dir)) L0)) w);
    set (xn := vadd (fs_x s) (vscale ss dir));
    (assert (Dss : datum ss);
      [unfold ss; destruct (dfind_item n d aw w Od Fw); apply minpy_datum; [|assumption];
       apply div_datum; [apply vdot_datum; [exact Ddir|apply vopp_datum, num_datum, Ng]|];
       apply mul_datum; [unfold nsq; apply mul_datum; apply vnorm_datum; exact Ddir|exact DL]|]);
    (assert (Nss : nn ss);
      [unfold ss; destruct (dfind_item n d aw w Od Fw); apply minpy_nn; [|assumption]; apply pp_nn;
       apply pp_div; [apply (cert_pp _ tol Ht Htn Ec)|]; apply pp_mul; [unfold nsq; apply pp_square|exact PL]|]);
    (destruct (update_ok n d fw aw w ss Od Gf Ga Fw Dss Nss (minpy_le _ _)) as (d' & Eu & Od' & Nd'));
    (assert (Lxn : length xn = n); [unfold xn, vadd, vscale; rewrite map2_length; rewrite ?map_length; lia|]);
    (assert (Dxn : Forall datum xn); [unfold xn; apply vadd_datum; [exact Dx|apply vscale_datum; assumption]|]);
    (destruct (cb_call _ _ _) as [stop log2] eqn:Ecb);
    (assert (Hlog2 : logok log2);
      [unfold cb_call in Ecb; destruct cb; injection Ecb as _ <-;
       repeat (constructor; [cbn [act_of fl_active]; try exact I; try (rewrite Ed; apply okd_nonneg; assumption); try (apply okd_nonneg; assumption)|]); exact Hlog|]);
    (destruct stop; [eexists; split; [reflexivity|]; apply finish_ok; [exists d; auto|exact Lx|exact Hlog2]|]);
    unfold act_update; rewrite Ed; cbn [lmo_fw lmo_away]; rewrite Eu; cbn [bind].
  - eexists. split; [reflexivity|]. apply finish_ok; [exists d'; auto|exact Lxn|exact Hlog2].
  - apply IH. destruct (Hfg xn Lxn Dxn) as [Lg' Ng']. unfold inv, stepped. cbn [fs_x fs_grad fs_lip fs_active fs_log lmo_dir].
    repeat (split; [assumption||reflexivity||(exists d'; auto)|]). exact Hlog2.
Qed.
End Run.

Lemma main_C122_returns (n : nat) (alpha L0 tol : F64) (fg : vec F64 -> F64 * vec F64)
    (cb : option (list (fw_event F64) -> bool)) (max_iter : nat) (sg : F64) (i0 : nat) (x0 : vec F64) :
  (0 < n)%nat -> (0 < max_iter)%nat -> (i0 < n)%nat -> sg = n1 \/ sg = nopp F64 n1 ->
  datum alpha -> datum L0 -> nltb F64 n0 L0 = true ->
  nltb F64 tol n0 = false -> nisnan tol = false -> length x0 = n -> Forall datum x0 ->
  (forall x, length x = n -> Forall datum x ->
     length (snd (fg x)) = n /\ Forall (fun g => datum g /\ nisnan g = false) (snd (fg x))) ->
  exists r d, minimize_fw fg (l1_pairwise_oracle alpha) (FSDR (K:=F64)) (Some L0) tol max_iter cb (Pairwise (sg, i0)) x0 = Ok r /\
    length (fr_x r) = n /\ fr_active r = Some d /\ d <> [] /\ NoDup (map fst d) /\
    Forall (fun kv => (snd (fst kv) < n)%nat /\ nltb F64 (snd kv) n0 = false) d /\
    (forall l a kv, In (FwCallback l) (fr_log r) -> fl_active l = Some a -> In kv a -> nltb F64 (snd kv) n0 = false).
Proof.
  intros Hn Hm Hi Hsg Da DL PL Ht Htn Lx Dx Hfg.
  assert (PL' : pp L0) by (destruct L0 as [[]|[]| |[] m e]; try exact I; try reflexivity; vm_compute in PL; discriminate PL).
  destruct (Hfg x0 Lx Dx) as [Lg Ng].
  destruct max_iter as [|k]; [lia|].
  assert (I0 : inv n L0 (mkFwS x0 (fst (fg x0)) (snd (fg x0)) None (Some L0) (Some [((sg, i0), n1)]) None [FwEval x0] [])).
  { unfold inv. cbn [fs_x fs_grad fs_lip fs_active fs_log]. repeat (split; [assumption||reflexivity|]).
    split; [|repeat constructor]. eexists. split; [reflexivity|]. split; [|discriminate]. split; [repeat constructor; intros []|].
    constructor; [|constructor]. split; [split; [cbn [fst]; tauto|exact Hi]|]. split; [exact datum_1|vm_compute; reflexivity]. }
  destruct (loop_ok n alpha L0 tol fg cb Hn Da DL PL' Ht Htn Hfg k 0 _ I0) as (r & Er & ((d & Ed & Nd & Dd & Fd) & Lr & Hlog)).
  exists r, d. split.
  { unfold minimize_fw. rewrite Ht. cbn [bind]. rewrite <- Er. destruct (fg x0); reflexivity. }
  repeat (split; [assumption|]). intros l a kv Hin Ea Hkv.
  pose proof (proj1 (Forall_forall _ _) Hlog _ Hin) as X. cbn [act_of] in X. rewrite Ea in X. destruct X as (_ & _ & X).
  exact (proj2 (proj1 (Forall_forall _ _) X _ Hkv)).
Qed.

(** One call of update_active_set, for every active set of the invariant and every step that does
    not exceed the weight of the away vertex. *)
Lemma main_C122_update (n : nat) (d : active F64) (fw aw : rep F64) (w s : F64) :
  NoDup (map fst d) ->
  Forall (fun kv => ((fst (fst kv) = n1 \/ fst (fst kv) = nopp F64 n1 \/ fst (fst kv) = n0) /\ (snd (fst kv) < n)%nat) /\
                    datum (snd kv) /\ nltb F64 (snd kv) n0 = false) d ->
  (fst fw = n1 \/ fst fw = nopp F64 n1 \/ fst fw = n0) -> (snd fw < n)%nat -> In (aw, w) d ->
  datum s -> nltb F64 s n0 = false -> nltb F64 w s = false ->
  exists d', update_active_set d fw aw s = Ok d' /\ d' <> [] /\ NoDup (map fst d') /\
    Forall (fun kv => nltb F64 (snd kv) n0 = false) d'.
Proof.
  intros Hn Hd Hf Hi Hin Ds Ns Hle.
  assert (NN : forall x : F64, nltb F64 x n0 = false -> nn x).
  { intros x Hx. destruct x as [[]|[]| |[] m e]; try exact I; vm_compute in Hx; try discriminate Hx; reflexivity. }
  assert (Od : okd n d).
  { split; [exact Hn|]. eapply Forall_impl; [|exact Hd]. intros kv (A & B & C). split; [exact A|]. split; [exact B|apply NN; exact C]. }
  assert (Ga : good n aw). { exact (proj1 (proj1 (Forall_forall _ _) (proj2 Od) _ Hin)). }
  destruct (update_ok n d fw aw w s Od (conj Hf Hi) Ga (dfind_in n d aw w Od Hin) Ds (NN s Ns) Hle) as (d' & E & Od' & Nd').
  exists d'. split; [exact E|]. split; [exact Nd'|]. split; [exact (proj1 Od')|].
  eapply Forall_impl; [|exact (proj2 Od')]. intros kv (_ & _ & X). apply nn_ltb; exact X.
Qed.
