(** Concrete splines used to show that the hypotheses of the theorems can be met. *)
From Coq Require Import Arith List ZArith QArith Qcanon.
From Verif Require Import Prelude Scalar Spec SpecSpline ModelSpline.
Import ListNotations.
Local Open Scope nat_scope.

(** A scalar-valued surface of degrees (2, 2). *)
Definition ex_s : spline Qc :=
  mkSpline [2; 2] 9 [1; 3]
    (map (fun z => Q2Qc (inject_Z z)) [1; 2; 3; 4; 5; 6; 7; 9; 8]%Z).

(** A surface of degrees (2, 1) in the plane. *)
Definition ex_p : spline (point Qc 2) :=
  mkSpline [2; 1] 6 [1; 3]
    (map (fun '(a, b) => (Q2Qc (a # 2), (Q2Qc (b # 2), tt)))
       [(0, 0); (2, 1); (3, 0); (0, 2); (1, 3); (4, 2)]%Z).

(** Equality of results containing rationals: compare the fractions. *)
Ltac qc_eq :=
  vm_compute;
  repeat first [ reflexivity | apply Qc_is_canon; reflexivity | f_equal ].

(** Closes the decidable side conditions of the concrete cases. *)
Ltac case_ :=
  repeat split;
  try first [ vm_compute; reflexivity | solve [qc_eq] | vm_compute; congruence
            | solve [repeat constructor] | simpl; Lia.lia ].
