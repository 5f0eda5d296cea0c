(** * ModelTorch: copt/utils_pytorch.py

    A tensor is its shape and its entries in row-major order.  PyTorch itself is a parameter: [loss_func] maps
    the tensor it is given to the loss tensor and to what backward() will add to the .grad of the leaves of
    the graph: x_tensor, and the other leaves that require gradients (the weights of a network, in order).
    [cast] is the conversion of an entry to the dtype of the tensor (rounding to float32, say).  Devices and
    the dtype of the results are not modelled. *)
From Coq Require Import ZArith Bool List.
From Verif Require Import Num Vec ModelLoss.
Import ListNotations.
Set Implicit Arguments.

Inductive dtype : Type := Floating | Integral.
Record tensor (K : Num) : Type := mkTensor { t_shape : list nat; t_data : vec K }.
Arguments mkTensor {K} _ _.
Arguments t_shape {K} _.
Arguments t_data {K} _.

(** the loss tensor: shape, entries, requires_grad, and the gradients backward() will produce ([None]: the leaf
    is not part of the graph) *)
Record loss_out (K : Num) : Type := mkLossOut {
  lo_shape : list nat; lo_data : vec K; lo_requires : bool;
  lo_gx : option (vec K); lo_gp : list (option (vec K)) }.
Arguments mkLossOut {K} _ _ _ _ _.
Arguments lo_shape {K} _.
Arguments lo_data {K} _.
Arguments lo_requires {K} _.
Arguments lo_gx {K} _.
Arguments lo_gp {K} _.

Section Torch.
Context {K : Num}.

Definition numel (shape : list nat) : nat := fold_right Nat.mul 1%nat shape.
Definition zprod (shape : list Z) : Z := fold_right Z.mul 1%Z shape.

(** Tensor.view( *shape ): no argument at all is a TypeError, every other problem a RuntimeError; one
    dimension may be -1 and is then inferred *)
Definition infer (n : nat) (shape : list Z) : result (list nat) :=
  match shape with
  | [] => Err TypeError
  | _ =>
    if existsb (fun d => (d <? -1)%Z) shape then Err RuntimeError else
    let rest := filter (fun d => negb (d =? -1)%Z) shape in
    match (length shape - length rest)%nat with
    | O => if (zprod shape =? Z.of_nat n)%Z then Ok (map Z.to_nat shape) else Err RuntimeError
    | S O => if (zprod rest =? 0)%Z then Err RuntimeError
             else if (Z.of_nat n mod zprod rest =? 0)%Z
                  then Ok (map (fun d => if (d =? -1)%Z then Z.to_nat (Z.of_nat n / zprod rest) else Z.to_nat d) shape)
                  else Err RuntimeError
    | _ => Err RuntimeError
    end
  end.

(** the .grad of the weights before and after backward(): the gradient is added to what is there *)
Definition accumulate (old new : option (vec K)) : option (vec K) :=
  match old, new with
  | o, None => o
  | None, Some g => Some g
  | Some o, Some g => Some (vadd o g)
  end.
Fixpoint accumulate_all (old new : list (option (vec K))) : list (option (vec K)) :=
  match old, new with
  | o :: old', g :: new' => accumulate o g :: accumulate_all old' new'
  | _, _ => old
  end.

Variables (loss_func : tensor K -> result (loss_out K)) (shape : list Z) (cast : K -> K) (dt : option dtype).

(** utils_pytorch.py:23-34 func_and_grad.  [xdt] is the dtype of the array x, [ps] the .grad of the weights;
    the second component is their value afterwards. *)
Definition func_and_grad (ps : list (option (vec K))) (x : vec K) (xdt : dtype) (return_gradient : bool)
  : result (fg_ret K) * list (option (vec K)) :=
  let d := match dt with Some d => d | None => xdt end in                        (* line 24 *)
  match infer (length x) shape with                                              (* line 25 *)
  | Err e => (Err e, ps)
  | Ok sh =>
    match d with
    | Integral => (Err RuntimeError, ps)                                         (* line 27 *)
    | Floating =>
      match loss_func (mkTensor sh (map cast x)) with                            (* line 29 *)
      | Err e => (Err e, ps)
      | Ok o =>
        if negb (lo_requires o) || negb (Nat.eqb (numel (lo_shape o)) 1) then (Err RuntimeError, ps)    (* line 30 *)
        else
          let ps' := accumulate_all ps (lo_gp o) in                              (* line 30, the other leaves *)
          let loss := nth 0 (lo_data o) n0 in                                    (* .item() *)
          if return_gradient then                                                (* line 31 *)
            match lo_gx o with
            | Some g => (Ok (RPair loss g), ps')                                 (* line 32 *)
            | None => (Err AttributeError, ps')                                  (* x_tensor.grad is None *)
            end
          else (Ok (RLoss loss), ps')                                            (* line 34 *)
      end
    end
  end.

(** a sequence of calls: the results, and the .grad of the weights at the end *)
Fixpoint calls (ps : list (option (vec K))) (xs : list (vec K * dtype * bool)) : list (result (fg_ret K)) * list (option (vec K)) :=
  match xs with
  | [] => ([], ps)
  | (x, t, b) :: rest =>
      let '(r, ps1) := func_and_grad ps x t b in
      let '(rs, ps2) := calls ps1 rest in (r :: rs, ps2)
  end.
End Torch.
