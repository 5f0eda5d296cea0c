(** * Concrete cases for pairwise Frank-Wolfe in binary64 *)
From Coq Require Import ZArith Lia Bool List.
From Verif Require Import Num Vec RVec ModelConstraint ModelFrankWolfe FloatBase FloatPair FloatPair2 FwPairRuns FloatPairMain.
Import ListNotations.

(** the function of FwPairRuns with a gradient passed through a nan guard *)
Definition guard (a : F64) : F64 := if nisnan a then n0 else a.
Definition guard_fg (x : vec F64) : F64 * vec F64 := (fst (tilt_fg x), map guard (snd (tilt_fg x))).
Lemma guard_ok x : length x = 2%nat -> Forall datum x ->
  length (snd (guard_fg x)) = 2%nat /\ Forall (fun g => datum g /\ nisnan g = false) (snd (guard_fg x)).
Proof.
  intros Hl Hd. destruct x as [|a [|b [|]]]; try discriminate Hl. unfold guard_fg. cbn [tilt_fg fst snd map length].
  split; [reflexivity|]. pose proof (Forall_inv Hd) as Ha. pose proof (Forall_inv (Forall_inv_tail Hd)) as Hb.
  assert (G : forall z : F64, datum z -> datum (guard z) /\ nisnan (guard z) = false).
  { intros z Hz. unfold guard. destruct (nisnan z) eqn:E; [split; [exact datum_0|reflexivity]|auto]. }
  assert (L : forall p q, datum (nlit (K:=F64) p q) -> True) by auto.
  constructor; [|constructor; [|constructor]]; apply G.
  - apply add_datum; [exact Ha|vm_compute; reflexivity].
  - apply mul_datum; [vm_compute; reflexivity|]. apply sub_datum; [exact Hb|vm_compute; reflexivity].
Qed.
Definition guard_check : bool :=
  match minimize_fw (K:=F64) guard_fg (l1_pairwise_oracle (K:=F64) n1) FSDR (Some (nofZ F64 2)) (nlit 1 100) 40 None
      (@Pairwise F64 (n1, 0%nat)) [nofZ F64 1; nofZ F64 0] with
  | Ok r => match fr_exit r with ExitGap => true | _ => false end && Nat.eqb (length (fr_iters r)) 7 &&
            match fr_active r with Some d => Nat.leb 2 (length d) && forallb (fun kv => nleb F64 n0 (snd kv)) d | None => false end
  | Err _ => false
  end.
Lemma guard_runs : guard_check = true.
Proof. vm_compute. reflexivity. Qed.
Lemma guard_hyps : datum (@n1 F64) /\ datum (nofZ F64 2) /\ nltb F64 n0 (nofZ F64 2) = true /\ nltb F64 (nlit 1 100) n0 = false /\
  nisnan (nlit (K:=F64) 1 100) = false /\ Forall datum [nofZ F64 1; nofZ F64 0].
Proof. repeat split; try (vm_compute; reflexivity). repeat constructor; vm_compute; reflexivity. Qed.
