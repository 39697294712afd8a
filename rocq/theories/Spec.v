(** Textbook mathematics the properties are stated with.

    This file does not mention the model of the source. *)
From Coq Require Import Arith Lia List ZArith NArith Bool.
From Verif Require Import Prelude Scalar.
Import ListNotations.

(** Binomial coefficients (Pascal's rule). *)
Fixpoint binom (n k : nat) : N :=
  match n, k with
  | _, O => 1%N
  | O, S _ => 0%N
  | S n', S k' => (binom n' k' + binom n' k)%N
  end.

(** Finite sums [f 0 + ... + f (n-1)]. *)
Section Sums.
Context {T V : Type} {o : SOps T} {ov : VOps T V}.
Fixpoint vsum (n : nat) (f : nat -> V) : V :=
  match n with O => v0 | S n' => vadd (vsum n' f) (f n') end.
Fixpoint ssum (n : nat) (f : nat -> T) : T :=
  match n with O => s0 | S n' => sadd (ssum n' f) (f n') end.
End Sums.

(** Product of a list of naturals. *)
Definition prod (l : list nat) : nat := fold_right Nat.mul 1 l.

(** Number of control points of a tensor-product Bezier spline. *)
Definition n_coeffs (degs : list nat) : nat := prod (map S degs).

(** The [j]-th Bernstein polynomial of degree [p]. *)
Definition bernstein {T} `{SOps T} (p j : nat) (x : T) : T :=
  smul (smul (sofN (binom p j)) (spow x j)) (spow (ssub s1 x) (p - j)).

(** Value of the tensor-product Bezier spline with coefficients [f]:
    sum over all multi-indices (j_1, ..., j_d), j_k <= p_k, of
    B_{j_1}(x_1) ... B_{j_d}(x_d) f(j_1 + (p_1+1) (j_2 + (p_2+1) (...))). *)
Fixpoint bezier {T V} `{SOps T} `{VOps T V}
  (degs : list nat) (xs : list T) (f : nat -> V) : V :=
  match degs, xs with
  | p :: degs', x :: xs' =>
      vsum (S p) (fun j => vscale (bernstein p j x)
        (bezier degs' xs' (fun g => f (j + S p * g))))
  | _, _ => f 0
  end.

(** Position of the multi-index [idx] (first index fastest). *)
Fixpoint position (degs idx : list nat) : nat :=
  match degs, idx with
  | p :: degs', i :: idx' => i + S p * position degs' idx'
  | _, _ => 0
  end.

(** [idx] is a valid multi-index for [degs]. *)
Definition valid_index (degs idx : list nat) : Prop :=
  Forall2 (fun p i => i <= p) degs idx.

(** [ls] with entry [k] replaced by [f (entry k)]. *)
Fixpoint upd_at {A} (k : nat) (f : A -> A) (ls : list A) : list A :=
  match ls, k with
  | [], _ => []
  | a :: t, O => f a :: t
  | a :: t, S k' => a :: upd_at k' f t
  end.

Definition in_unit {T} `{SOps T} (x : T) : Prop := sle s0 x /\ sle x s1.

(** Product of a list of scalars. *)
Definition sprod {T} `{SOps T} (l : list T) : T := fold_right smul s1 l.

(** Mixed-radix position of a multi-index for the given extents, first index
    fastest. *)
Fixpoint radix_position (sizes idx : list nat) : nat :=
  match sizes, idx with
  | n :: sizes', i :: idx' => i + n * radix_position sizes' idx'
  | _, _ => 0
  end.

(** The entries [fs_1[i_1], fs_2[i_2], ...]. *)
Fixpoint pick {A} (d : A) (fs : list (list A)) (idx : list nat) : list A :=
  match fs, idx with
  | f :: fs', i :: idx' => nth i f d :: pick d fs' idx'
  | _, _ => []
  end.

(** Entrywise combination of two lists. *)
Fixpoint map2 {A B C} (f : A -> B -> C) (l : list A) (m : list B) : list C :=
  match l, m with a :: l', b :: m' => f a b :: map2 f l' m' | _, _ => [] end.

(** A loop with fuel returns [r] for all sufficiently large fuel: the C++ call
    terminates and returns [r]. *)
Definition returns {A} (call : nat -> res A) (r : A) : Prop :=
  exists n, forall fuel, n <= fuel -> call fuel = Ok r.
