(** * Facts about the Frank-Wolfe model *)
From Coq Require Import ZArith Reals List Bool Lra Lia.
From Verif Require Import Num Vec Spec RVec ModelConstraint ModelFrankWolfe ConvexFacts ConstraintFacts.
Import ListNotations.
Set Implicit Arguments.

(** ** For every arithmetic *)
Section Gen.
Context {K : Num}.
Local Open Scope num_scope.
Variable fg : vec K -> K * vec K.
Variable lmo : lmo_fun K.
Variable step : fw_strategy K.
Variable lipschitz : option K.
Variable tol : K.
Variable cb : option (list (fw_event K) -> bool).

Notation loop := (fw_loop fg lmo step lipschitz tol cb).

Definition cur_lip (s : fw_state K) (o : lmo_out K) : K :=
  match fs_lip s with Some l => l | None => fw_lip_init fg (fs_x s) (fs_grad s) (lmo_dir o) (nsq (vnorm (lmo_dir o))) end.
Definition with_lip (s : fw_state K) (lip : K) : fw_state K :=
  mkFwS (fs_x s) (fs_f s) (fs_grad s) (fs_old s) (Some lip) (fs_active s) (fs_step s) (fs_log s) (fs_iters s).
Definition cb_call (log : list (fw_event K)) (l : fw_locals K) : bool * list (fw_event K) :=
  match cb with None => (false, log) | Some c => (c (FwCallback l :: log), FwCallback l :: log) end.
Definition act_update (s : fw_state K) (o : lmo_out K) (ss : K) : result (option (active K)) :=
  match fs_active s with
  | None => Ok None
  | Some a =>
      match lmo_fw o, lmo_away o with
      | Some fwr, Some awr => a' <- update_active_set a fwr awr ss ;; Ok (Some a')
      | _, _ => Err TypeError
      end
  end.
Definition stepped (s : fw_state K) (it : nat) (o : lmo_out K) (ss lip' : K) (fgn : K * vec K) (found : bool)
    (log2 : list (fw_event K)) (act : option (active K)) : fw_state K :=
  let xn := vadd (fs_x s) (vscale ss (lmo_dir o)) in
  mkFwS xn (fst fgn) (snd fgn) (Some (fs_f s)) (Some lip') act (Some ss) log2
    (mkFwI (fs_x s) (fs_f s) (fs_grad s) o (fw_cert (lmo_dir o) (fs_grad s)) lip' ss xn found it :: fs_iters s).
Definition halted (s : fw_state K) (ss lip' : K) (log2 : list (fw_event K)) : fw_state K :=
  mkFwS (fs_x s) (fs_f s) (fs_grad s) (fs_old s) (Some lip') (fs_active s) (Some ss) log2 (fs_iters s).

Lemma fw_loop_unfold k it s : loop (S k) it s =
  (o <- call_lmo lmo (vopp (fs_grad s)) (fs_x s) (fs_active s) ;;
   let cert := fw_cert (lmo_dir o) (fs_grad s) in
   let s1 := with_lip s (cur_lip s o) in
   if cert <=? tol then Ok (fw_finish cb s1 it cert o None ExitGap)
   else
     '(ss, lip', fgn, found, log1) <- fw_select fg step lipschitz s1 it cert (cur_lip s o) (lmo_dir o) (nsq (vnorm (lmo_dir o))) (lmo_max_step o) ;;
     let '(stop, log2) := cb_call log1 (mkFwL (fs_x s) (fs_f s) (fs_grad s) it cert (Some ss) (Some fgn) (fs_active s)) in
     if stop then Ok (fw_finish cb (halted s ss lip' log2) it cert o (Some fgn) ExitCallback)
     else
       act <- act_update s o ss ;;
       match k with
       | O => Ok (fw_finish cb (stepped s it o ss lip' fgn found log2 act) it cert o (Some fgn) ExitMaxIter)
       | S _ => loop k (S it) (stepped s it o ss lip' fgn found log2 act)
       end).
Proof. reflexivity. Qed.

Lemma fw_loop_ind (I : nat -> fw_state K -> Prop) (Q : fw_result K -> Prop) (m : nat) :
  (forall it s o, (it < m)%nat -> I it s -> call_lmo lmo (vopp (fs_grad s)) (fs_x s) (fs_active s) = Ok o ->
    let cert := fw_cert (lmo_dir o) (fs_grad s) in
    ((cert <=? tol) = true -> Q (fw_finish cb (with_lip s (cur_lip s o)) it cert o None ExitGap)) /\
    ((cert <=? tol) = false -> forall ss lip' fgn found log1,
       fw_select fg step lipschitz (with_lip s (cur_lip s o)) it cert (cur_lip s o) (lmo_dir o)
         (nsq (vnorm (lmo_dir o))) (lmo_max_step o) = Ok (ss, lip', fgn, found, log1) ->
       forall stop log2, cb_call log1 (mkFwL (fs_x s) (fs_f s) (fs_grad s) it cert (Some ss) (Some fgn) (fs_active s)) = (stop, log2) ->
       (stop = true -> Q (fw_finish cb (halted s ss lip' log2) it cert o (Some fgn) ExitCallback)) /\
       (stop = false -> forall act, act_update s o ss = Ok act ->
          I (S it) (stepped s it o ss lip' fgn found log2 act) /\
          (S it = m -> Q (fw_finish cb (stepped s it o ss lip' fgn found log2 act) it cert o (Some fgn) ExitMaxIter))))) ->
  forall k it s r, (k + it = m)%nat -> I it s -> loop k it s = Ok r -> Q r.
Proof.
  intros H. induction k as [|k IH]; intros it s r Hk Hi E; [discriminate E|].
  rewrite fw_loop_unfold in E.
  destruct (call_lmo lmo (vopp (fs_grad s)) (fs_x s) (fs_active s)) as [o|] eqn:Eo; [|discriminate E].
  specialize (H it s o ltac:(lia) Hi Eo). cbn [bind] in E. cbv zeta in E, H.
  destruct H as [H1 H2].
  destruct (fw_cert (lmo_dir o) (fs_grad s) <=? tol).
  { injection E as <-. auto. }
  specialize (H2 eq_refl).
  destruct (fw_select _ _ _ _ _ _ _ _ _ _) as [[[[[ss lip'] fgn] found] log1]|] eqn:Es; [|discriminate E].
  cbn [bind] in E. specialize (H2 _ _ _ _ _ eq_refl).
  destruct (cb_call _ _) as [stop log2]. specialize (H2 _ _ eq_refl). destruct H2 as [H2 H3].
  destruct stop. { injection E as <-. auto. }
  specialize (H3 eq_refl).
  destruct (act_update s o ss) as [act|]; [|discriminate E]. cbn [bind] in E.
  specialize (H3 _ eq_refl). destruct H3 as [H3 H4].
  destruct k as [|k].
  - injection E as <-. apply H4; lia.
  - exact (IH (S it) _ r ltac:(lia) H3 E).
Qed.

(** The values used in every iteration are those of the current iterate. *)
Lemma fw_bt_loop_eval : forall k x f_t cert lip max_step d norm_d last,
  (0 < k)%nat \/ snd last = fg (vadd x (vscale (fst last) d)) ->
  let o := fw_bt_loop fg k x f_t cert lip max_step d norm_d last in
  bt_fg o = fg (vadd x (vscale (bt_step o) d)).
Proof.
  induction k as [|k IH]; intros x f_t cert lip ms d nd last H.
  - destruct H as [H|H]; [lia|exact H].
  - cbn [fw_bt_loop]. destruct (fw_trial cert lip ms nd) as [s rhs].
    destruct (_ <=? _).
    + reflexivity.
    + apply IH. right. reflexivity.
Qed.

Lemma fw_select_eval s it cert lip d nd ms ss lip' fgn found log1 :
  fw_select fg step lipschitz s it cert lip d nd ms = Ok (ss, lip', fgn, found, log1) ->
  fgn = fg (vadd (fs_x s) (vscale ss d)).
Proof.
  unfold fw_select. destruct step; intros E.
  - injection E as <- <- <- <- <-. reflexivity.
  - injection E as <- <- <- <- <-. unfold fw_backtracking. apply fw_bt_loop_eval. left; lia.
  - destruct lipschitz; [|discriminate E]. injection E as <- <- <- <- <-. reflexivity.
  - injection E as <- <- <- <- <-. reflexivity.
  - discriminate E.
Qed.

Lemma fw_select_log s it cert lip d nd ms ss lip' fgn found log1 :
  fw_select fg step lipschitz s it cert lip d nd ms = Ok (ss, lip', fgn, found, log1) ->
  exists pre, log1 = pre ++ fs_log s /\ Forall (fun e => match e with FwCallback _ => False | _ => True end) pre.
Proof.
  unfold fw_select. destruct step; intros E.
  - injection E as <- <- <- <- <-. eexists [_; _]. split; [reflexivity|]. repeat constructor.
  - injection E as <- <- <- <- <-. exists []. split; [reflexivity|]. constructor.
  - destruct lipschitz; [|discriminate E]. injection E as <- <- <- <- <-. eexists [_]. split; [reflexivity|]. repeat constructor.
  - injection E as <- <- <- <- <-. eexists [_]. split; [reflexivity|]. repeat constructor.
  - discriminate E.
Qed.

(** the point after a list of iterations (newest first) *)
Definition fw_last (x0 : vec K) (l : list (fw_iter K)) : vec K :=
  match l with [] => x0 | i :: _ => fi_next i end.
Fixpoint fw_chain (x0 : vec K) (l : list (fw_iter K)) : Prop :=
  match l with [] => True | i :: l' => fi_x i = fw_last x0 l' /\ fi_it i = length l' /\ fw_chain x0 l' end.
Definition fw_iter_ok (i : fw_iter K) : Prop :=
  (fi_f i, fi_grad i) = fg (fi_x i) /\
  (exists a, call_lmo lmo (vopp (fi_grad i)) (fi_x i) a = Ok (fi_lmo i)) /\
  fi_cert i = fw_cert (lmo_dir (fi_lmo i)) (fi_grad i) /\ (fi_cert i <=? tol) = false /\
  fi_next i = vadd (fi_x i) (vscale (fi_step i) (lmo_dir (fi_lmo i))).
Definition fw_inv (x0 : vec K) (it : nat) (s : fw_state K) : Prop :=
  (fs_f s, fs_grad s) = fg (fs_x s) /\ fs_x s = fw_last x0 (fs_iters s) /\
  fw_chain x0 (fs_iters s) /\ length (fs_iters s) = it /\ Forall fw_iter_ok (fs_iters s).

Lemma fw_inv_init x0 a : fw_inv x0 0 (mkFwS x0 (fst (fg x0)) (snd (fg x0)) None lipschitz a None [FwEval x0] []).
Proof. unfold fw_inv; cbn. destruct (fg x0); repeat split; constructor. Qed.

Lemma fw_inv_step x0 it s o ss lip' fgn found log1 log2 act :
  fw_inv x0 it s -> call_lmo lmo (vopp (fs_grad s)) (fs_x s) (fs_active s) = Ok o ->
  (fw_cert (lmo_dir o) (fs_grad s) <=? tol) = false ->
  fw_select fg step lipschitz (with_lip s (cur_lip s o)) it (fw_cert (lmo_dir o) (fs_grad s)) (cur_lip s o) (lmo_dir o)
         (nsq (vnorm (lmo_dir o))) (lmo_max_step o) = Ok (ss, lip', fgn, found, log1) ->
  fw_inv x0 (S it) (stepped s it o ss lip' fgn found log2 act).
Proof.
  intros (A & B & C & D & E) Ho Hc Hs. unfold fw_inv, stepped; cbn [fs_f fs_grad fs_x fs_iters fw_last fi_next fw_chain fi_x fi_it length].
  split. { rewrite (fw_select_eval _ _ _ _ _ _ _ Hs). cbn [fs_x with_lip]. symmetry; apply surjective_pairing. }
  split. { reflexivity. }
  split. { auto. }
  split. { lia. }
  constructor; [|exact E]. unfold fw_iter_ok; cbn [fi_f fi_grad fi_x fi_lmo fi_cert fi_next fi_step].
  repeat split; auto. exists (fs_active s); exact Ho.
Qed.

Lemma minimize_fw_loop max_iter variant x0 r :
  minimize_fw fg lmo step lipschitz tol max_iter cb variant x0 = Ok r ->
  (tol <? n0) = false /\ exists a,
    match variant with Vanilla => a = None | Pairwise r0 => a = Some [(r0, n1)] | OtherVariant => False end /\
    loop max_iter 0 (mkFwS x0 (fst (fg x0)) (snd (fg x0)) None lipschitz a None [FwEval x0] []) = Ok r.
Proof.
  unfold minimize_fw. destruct (tol <? n0) eqn:Et; [intros E; discriminate E|].
  destruct variant; cbn [bind]; intros E; try discriminate E;
    (split; [reflexivity|]; eexists; split; [reflexivity|]); destruct (fg x0); exact E.
Qed.
End Gen.
