(** Shape (degrees and number of control points) of a derivative spline with
    64-bit unsigned arithmetic. *)
From Coq Require Import Arith List ZArith NArith Bool.
From Verif Require Import Prelude.
Import ListNotations.
Local Open Scope N_scope.

Definition u64 (n : N) : N := n mod 2 ^ 64.

(** src/bezier_spline.inc:253-259  compute_number_of_control_points, and the same
    product in the constructor src/bezier_spline.hpp:186-193 *)
Definition count64 (degs : list N) : N :=
  fold_left (fun n p => u64 (n * u64 (p + 1))) degs 1.

(** src/bezier_spline.inc:274-311, 314.  [new_degrees[k] -= orders[k]] wraps around; if the
    loop over the control points then runs at all, it addresses control points that do
    not exist ([UB]); if the count is zero the loop is skipped.  The result is the
    shape of [derivative{new_degrees}], whose copy loop runs [count64] times. *)
Fixpoint derivative_shape_from (done todo orders : list N) : res (list N * N) :=
  match todo, orders with
  | q :: todo', k :: orders' =>
      if k =? 0 then derivative_shape_from (done ++ [q]) todo' orders' else
      let q' := u64 (q + 2 ^ 64 - k) in
      if (q <? k) && negb (count64 (done ++ q' :: todo') =? 0) then UB
      else derivative_shape_from (done ++ [q']) todo' orders'
  | _, _ => Ok (done, count64 done)
  end.
Definition DerivativeShape64 (degs orders : list N) : res (list N * N) :=
  derivative_shape_from [] degs orders.
