(** * Pairwise Frank-Wolfe on the l1 ball: counting the steps that move *)
From Coq Require Import ZArith Reals List Bool Lra Lia Psatz.
From Verif Require Import Num Vec Spec RVec SpecSfwMean SfwMean2 ModelConstraint ModelFrankWolfe ConvexFacts ConstraintFacts FrankWolfeFacts FrankWolfeConv FrankWolfeMain FrankWolfePair.
Import ListNotations.
Open Scope R_scope.

(** ** Tokens: a decomposition in which a vertex may occur several times *)
Notation "'ind' v" := (fun k : key => if keq k v then 1 else 0) (at level 10, only parsing).

Definition move (away fw : key) (c : list key) : list key := map (fun k => if keq k away then fw else k) c.

Lemma S_move phi away fw : forall (c : list key) (tw : list R), length c = length tw ->
  S phi (combine (move away fw c) tw) = S phi (combine c tw) + S (ind away) (combine c tw) * (phi fw - phi away).
Proof.
  induction c as [|k c IH]; intros [|t tw] Hl; try discriminate Hl; cbn [move map combine S]; [lra|].
  injection Hl as Hl. specialize (IH tw Hl). unfold move in IH. rewrite IH. destruct (keq k away) as [->|]; lra.
Qed.

Lemma S_weight (d : list (key * R)) v : NoDup (map fst d) -> S (ind v) d = weight d v.
Proof.
  induction d as [|[k w] d IH]; intros Hn; cbn [S]; [reflexivity|]. cbn [map fst] in Hn.
  inversion Hn as [|? ? N1 N2]; subst. rewrite weight_cons, IH by assumption.
  destruct (keq k v) as [->|Hne].
  - destruct (keq v v); [|congruence]. rewrite (weight_notin d v N1). lra.
  - destruct (keq v k); [congruence|lra].
Qed.

(** the tokens of a decomposition over a list of vertices *)
Lemma S_table_ext phi (w1 w2 : key -> R) : forall V, (forall v, In v V -> w1 v = w2 v) ->
  S phi (map (fun v => (v, w1 v)) V) = S phi (map (fun v => (v, w2 v)) V).
Proof.
  induction V as [|v V IH]; intros H; cbn [map S]; [reflexivity|]. rewrite IH by (intros; apply H; right; assumption).
  rewrite (H v) by (left; reflexivity). reflexivity.
Qed.

Lemma S_table_upd phi (w1 w2 : key -> R) k : forall V, NoDup V -> In k V -> (forall v, v <> k -> w1 v = w2 v) ->
  S phi (map (fun v => (v, w1 v)) V) = S phi (map (fun v => (v, w2 v)) V) + (w1 k - w2 k) * phi k.
Proof.
  induction V as [|v V IH]; intros Hn Hin Hw; [destruct Hin|]. inversion Hn as [|? ? N1 N2]; subst. cbn [map S].
  destruct (keq v k) as [->|Hne].
  - rewrite (S_table_ext phi w1 w2 V); [lra|]. intros v Hv. apply Hw. congruence.
  - destruct Hin as [E|Hin]; [congruence|]. rewrite IH by assumption. rewrite (Hw v Hne). lra.
Qed.

Lemma S_table phi V : NoDup V -> forall d : list (key * R), NoDup (map fst d) -> incl (map fst d) V ->
  S phi (map (fun v => (v, weight d v)) V) = S phi d.
Proof.
  intros HV. induction d as [|[k w] d IH]; intros Hn Hi; cbn [S].
  - clear. induction V as [|v V IH]; cbn [map S weight]; [reflexivity|]. cbn [weight] in IH. rewrite IH. lra.
  - cbn [map fst] in Hn, Hi. inversion Hn as [|? ? N1 N2]; subst.
    rewrite (S_table_upd phi (weight ((k, w) :: d)) (weight d) k V HV).
    + rewrite IH; [|assumption|intros v Hv; apply Hi; right; exact Hv]. rewrite weight_cons.
      destruct (keq k k); [|congruence]. rewrite (weight_notin d k N1). lra.
    + apply Hi. left. reflexivity.
    + intros v Hv. rewrite weight_cons. destruct (keq v k); [congruence|reflexivity].
Qed.

Lemma combine_table (w : key -> R) V : combine V (map w V) = map (fun v => (v, w v)) V.
Proof. induction V as [|v V IH]; cbn [map combine]; [reflexivity|]. rewrite IH. reflexivity. Qed.

Lemma wsum_ext n alpha (d d' : list (key * R)) : (forall phi, S phi d = S phi d') -> wsum n alpha d = wsum n alpha d'.
Proof.
  intros H. apply list_ext with (d := 0); [rewrite !wsum_length; reflexivity|].
  intros i Hi. rewrite wsum_length in Hi. rewrite !wsum_S by exact Hi. apply H.
Qed.

(** ** The invariant *)
Section Phase.
Variables (n : nat) (alpha : R) (V : list key) (f : list R -> R) (f0 delta : R).
Hypothesis HV : NoDup V.

Definition phase (x : list R) (d : list (key * R)) (cnt : nat) : Prop :=
  exists (u : nat) (tw : list R) (c : list key) (H : list (list key)),
    (cnt <= u * length V ^ length V + length H)%nat /\
    length tw = length V /\ x = wsum n alpha (combine c tw) /\
    (forall v, weight d v = S (ind v) (combine c tw)) /\
    NoDup (c :: H) /\ Forall (fun c' => In c' (seqs V (length V))) (c :: H) /\
    Forall (fun c' => f x < f (wsum n alpha (combine c' tw))) H /\
    f x + INR u * delta <= f0.

Lemma phase_same x d d' cnt : phase x d cnt -> (forall v, weight d' v = weight d v) -> phase x d' cnt.
Proof.
  intros (u & tw & c & H & P1 & P2 & P3 & P4 & P5) Hw. exists u, tw, c, H.
  split; [exact P1|]. split; [exact P2|]. split; [exact P3|]. split; [|exact P5]. intros v. rewrite Hw. apply P4.
Qed.

Lemma phase_bound x d cnt : phase x d cnt -> exists u : nat, (cnt < Datatypes.S u * length V ^ length V)%nat /\ f x + INR u * delta <= f0.
Proof.
  intros (u & tw & c & H & P1 & P2 & P3 & P4 & P5 & P6 & P7 & P8). exists u. split; [|exact P8].
  assert (Hl : (length (c :: H) <= length (seqs V (length V)))%nat).
  { apply NoDup_incl_length; [exact P5|]. intros w Hw. rewrite Forall_forall in P6. auto. }
  rewrite seqs_length in Hl. cbn [length] in Hl. lia.
Qed.

Lemma fresh x (d : list (key * R)) (u cnt : nat) : NoDup (map fst d) -> incl (map fst d) V -> x = wsum n alpha d ->
  (cnt <= u * length V ^ length V)%nat -> f x + INR u * delta <= f0 -> phase x d cnt.
Proof.
  intros Hn Hi Hx Hc Hf. exists u, (map (weight d) V), V, []. rewrite combine_table.
  split; [cbn [length]; lia|]. split; [apply map_length|]. split.
  { rewrite Hx. apply wsum_ext. intros phi. symmetry. apply S_table; assumption. }
  split; [intros v; rewrite S_table by assumption; symmetry; apply S_weight; exact Hn|].
  split; [constructor; [intros []|constructor]|]. split; [|split; [constructor|exact Hf]].
  constructor; [|constructor]. apply seqs_in. split; [reflexivity|]. apply Forall_forall. auto.
Qed.

Lemma phase_new x d x' d' cnt : phase x d cnt -> NoDup (map fst d') -> incl (map fst d') V -> x' = wsum n alpha d' ->
  f x' + delta <= f x -> phase x' d' (Datatypes.S cnt).
Proof.
  intros Hp Hn Hi Hx Hf. destruct (phase_bound _ _ _ Hp) as (u & P1 & P2).
  apply (fresh x' d' (Datatypes.S u)); [exact Hn|exact Hi|exact Hx|lia|]. rewrite S_INR. lra.
Qed.

Lemma phase_move x d x' d' (fw away : key) cnt : phase x d cnt -> In fw V -> In away V ->
  (forall v, weight d' v = weight d v + (if keq v fw then weight d away else 0) - (if keq v away then weight d away else 0)) ->
  x' = vplus x (smul (weight d away) (vminus (vertex n (alpha * fst fw) (snd fw)) (vertex n (alpha * fst away) (snd away)))) ->
  f x' < f x -> phase x' d' (Datatypes.S cnt).
Proof.
  intros (u & tw & c & H & P1 & P2 & P3 & P4 & P5 & P6 & P7 & P8) Hfw Haw Hw Hx Hf.
  pose proof (Forall_inv P6) as Pc. apply seqs_in in Pc as (Lc & Fc).
  assert (Hl : length c = length tw) by congruence.
  assert (Hx' : x' = wsum n alpha (combine (move away fw c) tw)).
  { rewrite Hx. apply list_ext with (d := 0).
    - rewrite P3. unfold vplus, vminus. rewrite lin_length, smul_length, lin_length, !vertex_length, !wsum_length. lia.
    - intros i Hi. assert (Hin : (i < n)%nat).
      { rewrite P3 in Hi. unfold vplus in Hi. rewrite lin_length, wsum_length in Hi. lia. }
      assert (Hlx : length x = n) by (rewrite P3; apply wsum_length).
      rewrite nth_vplus by (rewrite smul_length; unfold vminus; rewrite lin_length, !vertex_length; lia).
      rewrite nth_smul, nth_vminus by (rewrite !vertex_length; reflexivity).
      rewrite P3, !wsum_S by exact Hin. rewrite S_move by exact Hl. rewrite P4. reflexivity. }
  exists u, tw, (move away fw c), (c :: H). split; [cbn [length]; lia|]. split; [exact P2|]. split; [exact Hx'|]. split.
  { intros v. rewrite S_move by exact Hl. rewrite Hw, !P4.
    destruct (keq v fw) as [E1|N1]; destruct (keq fw v) as [E2|N2]; try congruence;
    destruct (keq v away) as [E3|N3]; destruct (keq away v) as [E4|N4]; try congruence; lra. }
  split.
  { constructor; [|exact P5]. intros [E|Hin].
    - rewrite Hx', <- E, <- P3 in Hf. lra.
    - rewrite Forall_forall in P7. specialize (P7 _ Hin). rewrite <- Hx' in P7. lra. }
  split.
  { constructor; [|exact P6]. apply seqs_in. split; [unfold move; rewrite map_length; exact Lc|].
    unfold move. apply Forall_map. eapply Forall_impl; [|exact Fc]. intros k Hk. cbn beta. destruct (keq k away); assumption. }
  split.
  { constructor; [rewrite <- P3; exact Hf|]. eapply Forall_impl; [|exact P7]. intros c' Hc'. cbn beta in *. lra. }
  lra.
Qed.
End Phase.
