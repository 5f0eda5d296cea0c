(** * Num: the arithmetic the model is parametric in.

    copt computes with numpy float64 (and occasionally Python floats).  The model is
    written once over a record of operations.  Three instances are given:
    [RN] exact reals (proofs of optimality), [QN] exact rationals (execution), and
    [F64] IEEE binary64 (execution, pure Gallina [SpecFloat], round to nearest even). *)
From Coq Require Import ZArith QArith Qabs Reals Floats.SpecFloat Bool List Lra Lia.
From Coq Require Qround.
Set Implicit Arguments.

Record Num : Type := mkNum {
  carrier :> Type;
  n0 : carrier;
  n1 : carrier;
  nadd : carrier -> carrier -> carrier;
  nsub : carrier -> carrier -> carrier;
  nmul : carrier -> carrier -> carrier;
  ndiv : carrier -> carrier -> carrier;
  nopp : carrier -> carrier;
  nabs : carrier -> carrier;
  nsqrt : carrier -> carrier;
  nltb : carrier -> carrier -> bool;
  nleb : carrier -> carrier -> bool;
  neqb : carrier -> carrier -> bool;
  nofZ : Z -> carrier
}.

Arguments n0 {n}.
Arguments n1 {n}.

Declare Scope num_scope.
Delimit Scope num_scope with num.
Notation "x + y" := (nadd _ x y) : num_scope.
Notation "x - y" := (nsub _ x y) : num_scope.
Notation "x * y" := (nmul _ x y) : num_scope.
Notation "x / y" := (ndiv _ x y) : num_scope.
Notation "- x" := (nopp _ x) : num_scope.
Notation "x <? y" := (nltb _ x y) : num_scope.
Notation "x <=? y" := (nleb _ x y) : num_scope.
Notation "x =? y" := (neqb _ x y) : num_scope.

Section Derived.
Context {K : Num}.
Local Open Scope num_scope.

(** Python int used as a number. *)
Definition nofnat (n : nat) : K := nofZ K (Z.of_nat n).

(** A decimal literal [p/q] of the source (e.g. 0.9 is [nlit 9 10]).  In IEEE arithmetic the
    quotient of two exactly represented integers is the correctly rounded literal. *)
Definition nlit (p q : Z) : K := nofZ K p / nofZ K q.

Definition nisnan (x : K) : bool := negb (x =? x).

(** numpy.sign: -1, 0 or 1 (nan for nan). *)
Definition nsign (x : K) : K :=
  if n0 <? x then n1 else if x <? n0 then - n1 else if x =? n0 then n0 else x.

(** numpy.fmax: the larger argument, ignoring a nan argument. *)
Definition nfmax (x y : K) : K :=
  if nisnan x then y else if nisnan y then x else if x <? y then y else x.

(** Python builtins max(a, b) / min(a, b): the first argument unless the second is
    strictly larger / smaller. *)
Definition nmaxpy (x y : K) : K := if x <? y then y else x.
Definition nminpy (x y : K) : K := if y <? x then y else x.

(** numpy clip / maximum / minimum propagate nan (nan compares false, so the first
    argument is kept when it is nan). *)
Definition nclip (lo hi x : K) : K :=
  let y := if x <? lo then lo else x in if hi <? y then hi else y.

(** Integer power (Python ** with a small int exponent; used for squares). *)
Definition nsq (x : K) : K := x * x.
Fixpoint npow (x : K) (k : nat) : K :=
  match k with O => n1 | S k' => npow x k' * x end.

End Derived.

(** ** Exact reals *)
Definition Rltb (x y : R) : bool := if Rlt_dec x y then true else false.
Definition Rleb (x y : R) : bool := if Rle_dec x y then true else false.
Definition Reqb (x y : R) : bool := if Req_EM_T x y then true else false.

Definition RN : Num :=
  {| carrier := R; n0 := 0%R; n1 := 1%R;
     nadd := Rplus; nsub := Rminus; nmul := Rmult; ndiv := Rdiv;
     nopp := Ropp; nabs := Rabs; nsqrt := R_sqrt.sqrt;
     nltb := Rltb; nleb := Rleb; neqb := Reqb; nofZ := IZR |}.

Lemma Rltb_spec x y : BoolSpec (x < y)%R (y <= x)%R (Rltb x y).
Proof. unfold Rltb; destruct (Rlt_dec x y); constructor; lra. Qed.
Lemma Rleb_spec x y : BoolSpec (x <= y)%R (y < x)%R (Rleb x y).
Proof. unfold Rleb; destruct (Rle_dec x y); constructor; lra. Qed.
Lemma Reqb_spec x y : BoolSpec (x = y) (x <> y) (Reqb x y).
Proof. unfold Reqb; destruct (Req_EM_T x y); constructor; assumption. Qed.
Lemma Rltb_true x y : (x < y)%R -> Rltb x y = true.
Proof. destruct (Rltb_spec x y); [reflexivity|lra]. Qed.
Lemma Rltb_false x y : (y <= x)%R -> Rltb x y = false.
Proof. destruct (Rltb_spec x y); [lra|reflexivity]. Qed.
Lemma Rleb_true x y : (x <= y)%R -> Rleb x y = true.
Proof. destruct (Rleb_spec x y); [reflexivity|lra]. Qed.
Lemma Rleb_false x y : (y < x)%R -> Rleb x y = false.
Proof. destruct (Rleb_spec x y); [lra|reflexivity]. Qed.
Lemma Reqb_refl x : Reqb x x = true.
Proof. destruct (Reqb_spec x x); [reflexivity|congruence]. Qed.
Lemma Rltb_iff x y : Rltb x y = true <-> (x < y)%R.
Proof. destruct (Rltb_spec x y); split; intros; try lra; congruence. Qed.
Lemma Rleb_iff x y : Rleb x y = true <-> (x <= y)%R.
Proof. destruct (Rleb_spec x y); split; intros; try lra; congruence. Qed.
Lemma Reqb_iff x y : Reqb x y = true <-> x = y.
Proof. destruct (Reqb_spec x y); split; intros; try congruence. Qed.

Arguments Rltb_true : clear implicits.
Arguments Rltb_false : clear implicits.
Arguments Rleb_true : clear implicits.
Arguments Rleb_false : clear implicits.

(** Expose the real operations behind the record. *)
Ltac rn := cbn [carrier n0 n1 nadd nsub nmul ndiv nopp nabs nsqrt nltb nleb neqb nofZ RN] in *.
(** Case split on one real comparison. *)
Ltac rcase :=
  match goal with
  | |- context [Rltb ?a ?b] => destruct (Rltb_spec a b)
  | |- context [Rleb ?a ?b] => destruct (Rleb_spec a b)
  | |- context [Reqb ?a ?b] => destruct (Reqb_spec a b)
  end.
Ltac rcase_in H :=
  match type of H with
  | context [Rltb ?a ?b] => destruct (Rltb_spec a b)
  | context [Rleb ?a ?b] => destruct (Rleb_spec a b)
  | context [Reqb ?a ?b] => destruct (Reqb_spec a b)
  end.

Lemma nisnan_R (x : R) : @nisnan RN x = false.
Proof. unfold nisnan; rn; rewrite Reqb_refl; reflexivity. Qed.
Lemma nfmax_R (x y : R) : @nfmax RN x y = Rmax x y.
Proof.
  unfold nfmax; rewrite !nisnan_R; rn; unfold Rmax.
  rcase; destruct (Rle_dec x y); lra.
Qed.
Lemma nmaxpy_R (x y : R) : @nmaxpy RN x y = Rmax x y.
Proof. unfold nmaxpy; rn; unfold Rmax; rcase; destruct (Rle_dec x y); lra. Qed.
Lemma nminpy_R (x y : R) : @nminpy RN x y = Rmin x y.
Proof. unfold nminpy; rn; unfold Rmin; rcase; destruct (Rle_dec x y); lra. Qed.
Lemma nofnat_R n : @nofnat RN n = INR n.
Proof. unfold nofnat; rn; symmetry; apply INR_IZR_INZ. Qed.
Lemma nlit_R p q : @nlit RN p q = (IZR p / IZR q)%R.
Proof. reflexivity. Qed.

(** ** Exact rationals (executable).  [nsqrt] is exact on squares of rationals with
    moderate denominators and truncated to 12 decimals otherwise; division by zero is 0.
    Used only for executable examples. *)
Definition Qsqrt_trunc (q : Q) : Q :=
  let S := 1000000000000%Z in
  let r := Qred q in
  let n := Qnum r in let d := Zpos (Qden r) in
  Qred ((Z.sqrt (n * d * S * S) # 1) / ((d * S) # 1)).
Definition Qltb (x y : Q) : bool := (Qnum x * QDen y <? Qnum y * QDen x)%Z.

Definition QN : Num :=
  {| carrier := Q; n0 := 0%Q; n1 := 1%Q;
     nadd := fun x y => Qred (x + y); nsub := fun x y => Qred (x - y);
     nmul := fun x y => Qred (x * y); ndiv := fun x y => Qred (x / y);
     nopp := Qopp; nabs := Qabs; nsqrt := Qsqrt_trunc;
     nltb := Qltb; nleb := Qle_bool; neqb := Qeq_bool; nofZ := inject_Z |}.

(** ** IEEE binary64 (executable, no primitive floats). *)
Definition f64_prec : Z := 53%Z.
Definition f64_emax : Z := 1024%Z.
Definition F64 : Num :=
  {| carrier := spec_float;
     n0 := S754_zero false;
     n1 := binary_normalize f64_prec f64_emax 1 0 false;
     nadd := SFadd f64_prec f64_emax; nsub := SFsub f64_prec f64_emax;
     nmul := SFmul f64_prec f64_emax; ndiv := SFdiv f64_prec f64_emax;
     nopp := SFopp; nabs := SFabs; nsqrt := SFsqrt f64_prec f64_emax;
     nltb := SFltb; nleb := SFleb; neqb := SFeqb;
     nofZ := fun z => binary_normalize f64_prec f64_emax z 0 false |}.

Example f64_literal_inexact :
  neqb F64 (nadd F64 (@nlit F64 1 10) (@nlit F64 2 10)) (@nlit F64 3 10) = false.
Proof. vm_compute; reflexivity. Qed.
