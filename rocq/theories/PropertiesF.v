(** Properties C07, C14-C16: derivatives. *)
From Coq Require Import Arith Lia List ZArith NArith Bool QArith Qcanon Reals.
From Verif Require Import Prelude Scalar Spec SpecSpline SpecReal Coord ModelBasis ModelSpline ModelDerivShape Examples ClaimsF.
Import ListNotations.
Local Open Scope nat_scope.

(** The coordinates of a point are linear forms. *)
Example coord_linear_form : forall d k, linear_form (fun p : point R d => coord d p k).
Proof. intros d k. split; [intros a b; exact (coord_add (T := R) d a b k)|intros c a; exact (coord_scale (T := R) d c a k)]. Qed.
Example directions_case : directions_of [2; 1] [0; 1; 0].
Proof.
  split; [repeat constructor|]. intros [|[|k]] Hk; try reflexivity. simpl in Hk; lia.
Qed.

(** C07: BernsteinPolynomial::EvaluateDerivative. *)
Theorem C07_derivatives : forall (MAXB p k : nat), MAXB <= 68 -> p < MAXB ->
  exists g : nat -> R -> R,
    (forall x : R, BernsteinEvaluateDerivative MAXB p x k = Ok (map (fun i => g i x) (seq 0 (S p)))) /\
    (forall i, nth_derivative k (bernstein p i) (g i)).
Proof. exact c07_derivatives. Qed.
Print Assumptions C07_derivatives.
Theorem C07_zero : forall (T : Type) (o : SOps T) (F : SField T) (MAXB p k : nat) (x : T),
  MAXB <= 68 -> p < MAXB -> p < k -> BernsteinEvaluateDerivative MAXB p x k = Ok (repeat s0 (S p)).
Proof. exact c07_zero. Qed.
Print Assumptions C07_zero.
Example C07_case : BernsteinEvaluateDerivative 4 2 (Q2Qc (1 # 2)) 1 = Ok [Q2Qc (-1); Q2Qc 0; Q2Qc 1].
Proof. case_. Qed.

(** C14: the derivative spline is the derivative. *)
Theorem C14_derivative_spline : forall (V : Type) (ov : VOps R V) (M : VMod R V) (MAXB : nat)
  (s : spline V) (orders : list nat),
  MAXB <= 68 -> wf s -> length orders = length (degrees s) ->
  Forall2 le orders (degrees s) -> Forall (fun k => k < MAXB) orders ->
  exists r f g, DerivativeWRT MAXB s orders = Ok r /\ wf r /\
    degrees r = map2 Nat.sub (degrees s) orders /\
    (forall xs : list R, length xs = length (degrees s) -> Evaluate s xs = Ok (f xs) /\ Evaluate r xs = Ok (g xs)) /\
    forall (phi : V -> R) dirs, linear_form phi -> directions_of orders dirs ->
      mixed (fun xs => length xs = length (degrees s)) dirs (fun xs => phi (f xs)) (fun xs => phi (g xs)).
Proof. exact c14_derivative_spline. Qed.
Print Assumptions C14_derivative_spline.
Example C14_case : wf ex_p /\ Forall2 le [1; 1] (degrees ex_p) /\ Forall (fun k => k < 4) [1; 1] /\
  (exists r, DerivativeWRT 4 ex_p [1; 1] = Ok r /\ degrees r = [1; 0] /\
     control_points r = [(Q2Qc (-1), (Q2Qc 0, tt)); (Q2Qc 2, (Q2Qc 0, tt))]).
Proof. do 3 (split; [case_|]). eexists. split; [vm_compute; reflexivity|]. case_. Qed.

(** C15: EvaluateDerivative agrees with it. *)
Theorem C15_agrees : forall (T V : Type) (o : SOps T) (ov : VOps T V) (F : SField T) (M : VMod T V) (MAXB : nat)
  (s : spline V) (orders : list nat),
  MAXB <= 68 -> wf s -> length orders = length (degrees s) ->
  Forall2 le orders (degrees s) -> Forall (fun p => p < MAXB) (degrees s) ->
  exists r, DerivativeWRT MAXB s orders = Ok r /\
    forall xs : list T, length xs = length (degrees s) ->
      exists v, EvaluateDerivative MAXB s xs orders = Ok v /\ Evaluate r xs = Ok v.
Proof. exact c15_agrees. Qed.
Print Assumptions C15_agrees.
Theorem C15_zero : forall (T V : Type) (o : SOps T) (ov : VOps T V) (F : SField T) (M : VMod T V) (MAXB : nat)
  (s : spline V) (orders : list nat) (xs : list T) (k : nat),
  MAXB <= 68 -> wf s -> length orders = length (degrees s) -> length xs = length (degrees s) ->
  Forall (fun p => p < MAXB) (degrees s) ->
  k < length (degrees s) -> nth k (degrees s) 0 < nth k orders 0 ->
  EvaluateDerivative MAXB s xs orders = Ok v0.
Proof. exact c15_zero. Qed.
Print Assumptions C15_zero.
Theorem C15_derivative : forall (V : Type) (ov : VOps R V) (M : VMod R V) (MAXB : nat)
  (s : spline V) (orders : list nat),
  MAXB <= 68 -> wf s -> length orders = length (degrees s) -> Forall (fun p => p < MAXB) (degrees s) ->
  exists f g, (forall xs : list R, length xs = length (degrees s) ->
      Evaluate s xs = Ok (f xs) /\ EvaluateDerivative MAXB s xs orders = Ok (g xs)) /\
    forall (phi : V -> R) dirs, linear_form phi -> directions_of orders dirs ->
      mixed (fun xs => length xs = length (degrees s)) dirs (fun xs => phi (f xs)) (fun xs => phi (g xs)).
Proof. exact c15_derivative. Qed.
Print Assumptions C15_derivative.
Example C15_case : Forall (fun p => p < 4) (degrees ex_p) /\
  EvaluateDerivative 4 ex_p [Q2Qc 1; Q2Qc 3] [1; 1] = Ok (Q2Qc 2, (Q2Qc 0, tt)) /\
  EvaluateDerivative 4 ex_p [Q2Qc 1; Q2Qc 3] [0; 2] = Ok (Q2Qc 0, (Q2Qc 0, tt)).
Proof. case_. Qed.

(** C16: an order beyond the degree wraps the unsigned degree around. *)
Theorem C16_within_degree : forall (degs orders : list N),
  length orders = length degs -> Forall (fun p => (p < 2 ^ 64)%N) degs ->
  (forall i, i < length degs -> (nth i orders 0 <= nth i degs 0)%N) ->
  (fold_right (fun p a => (p + 1) * a)%N 1%N degs < 2 ^ 64)%N ->
  let nd := map (fun qk => (fst qk - snd qk)%N) (combine degs orders) in
  DerivativeShape64 degs orders = Ok (nd, fold_right (fun p a => (p + 1) * a)%N 1%N nd).
Proof. exact c16_within_degree. Qed.
Print Assumptions C16_within_degree.
Theorem C16_beyond_degree : forall (degs orders : list N) (i : nat),
  length orders = length degs -> i < length degs -> (nth i degs 0 < nth i orders 0 < 2 ^ 64)%N ->
  DerivativeShape64 degs orders = UB \/
  exists nd n, DerivativeShape64 degs orders = Ok (nd, n) /\ (nth i nd 0 > nth i degs 0)%N.
Proof. exact c16_beyond_degree. Qed.
Print Assumptions C16_beyond_degree.
Theorem C16_one_beyond : forall (degs orders : list N) (i : nat) (nd : list N) (n : N),
  length orders = length degs -> i < length degs ->
  Forall (fun p => (p < 2 ^ 64)%N) degs -> nth i orders 0%N = (nth i degs 0 + 1)%N ->
  DerivativeShape64 degs orders = Ok (nd, n) -> n = 0%N.
Proof. exact c16_one_beyond. Qed.
Print Assumptions C16_one_beyond.
Theorem C16_beyond_degree_refuted : exists (degs orders nd : list N) (n : N),
  length orders = length degs /\ (exists i, nth i degs 0 < nth i orders 0)%N /\
  DerivativeShape64 degs orders = Ok (nd, n) /\
  n <> fold_right (fun p a => (p + 1) * a)%N 1%N nd.
Proof. exact c16_beyond_degree_refuted. Qed.
Print Assumptions C16_beyond_degree_refuted.
Example C16_case : DerivativeShape64 [2; 3]%N [3; 1]%N = Ok ([2 ^ 64 - 1; 2]%N, 0%N) /\
  DerivativeShape64 [2; 3]%N [2; 1]%N = Ok ([0; 2]%N, 3%N) /\ DerivativeShape64 [2; 3]%N [4; 1]%N = UB.
Proof. vm_compute. repeat split. Qed.
