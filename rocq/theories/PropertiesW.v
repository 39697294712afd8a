(** Property C75: the rules of differential calculus between DerivativeWRT and the other operations. *)
From Coq Require Import Arith Lia List ZArith NArith Bool QArith Qcanon Reals Lra.
From Verif Require Import Prelude Scalar Spec SpecSpline SpecReal Coord ModelBasis ModelSpline ModelPoint ModelRational
  Examples SpecLaws PropertiesE ClaimsW.
Import ListNotations.
Local Open Scope nat_scope.

(** C75: derivative splines obey the rules of calculus, control point by control point. *)
Theorem C75_separated : separated (V := R) /\ forall d : nat, separated (V := point R d).
Proof. exact c75_separated. Qed.
Print Assumptions C75_separated.
Theorem C75_repeated : forall (V : Type) (ov : VOps R V) (M : VMod R V) (MAXB : nat) (s : spline V) (o1 o2 : list nat),
  separated (V := V) -> MAXB <= 68 -> wf s -> length o1 = length (degrees s) -> length o2 = length (degrees s) ->
  Forall2 le (map2 Nat.add o1 o2) (degrees s) -> Forall (fun k => k < MAXB) (map2 Nat.add o1 o2) ->
  exists a r, DerivativeWRT MAXB s o1 = Ok a /\ DerivativeWRT MAXB a o2 = Ok r /\
    DerivativeWRT MAXB s (map2 Nat.add o1 o2) = Ok r.
Proof. exact c75_repeated. Qed.
Print Assumptions C75_repeated.
Theorem C75_linear : forall (V : Type) (ov : VOps R V) (M : VMod R V) (MAXB : nat) (a b : spline V) (orders : list nat) (c : R),
  separated (V := V) -> MAXB <= 68 -> wf a -> wf b -> length (degrees b) = length (degrees a) ->
  length orders = length (degrees a) -> Forall2 le orders (degrees a) -> Forall2 le orders (degrees b) ->
  Forall (fun k => k < MAXB) orders ->
  (Z.of_nat (n_coeffs (map2 Nat.max (degrees a) (degrees b))) < 2 ^ 31)%Z ->
  exists s ca da db r dca, returns (fun fuel => spline_add (T := R) fuel a b) s /\ spline_scale a c = Ok ca /\
    DerivativeWRT MAXB a orders = Ok da /\ DerivativeWRT MAXB b orders = Ok db /\
    returns (fun fuel => spline_add (T := R) fuel da db) r /\ DerivativeWRT MAXB s orders = Ok r /\
    spline_scale da c = Ok dca /\ DerivativeWRT MAXB ca orders = Ok dca.
Proof. exact c75_linear. Qed.
Print Assumptions C75_linear.
Theorem C75_elevation : forall (V : Type) (ov : VOps R V) (M : VMod R V) (MAXB : nat) (s : spline V) (orders : list nat) (k : nat),
  separated (V := V) -> MAXB <= 68 -> wf s -> length orders = length (degrees s) -> Forall2 le orders (degrees s) ->
  Forall (fun k => k < MAXB) orders -> k < length (degrees s) ->
  (Z.of_nat (n_coeffs (upd_list (degrees s) k (S (nth k (degrees s) 0%nat)))) < 2 ^ 31)%Z ->
  exists e d r, OrderElevate (T := R) s k = Ok e /\ DerivativeWRT MAXB s orders = Ok d /\
    OrderElevate (T := R) d k = Ok r /\ DerivativeWRT MAXB e orders = Ok r.
Proof. exact c75_elevation. Qed.
Print Assumptions C75_elevation.
Theorem C75_split : forall (V : Type) (ov : VOps R V) (M : VMod R V) (MAXB : nat) (s : spline V) (x : R) (k j : nat),
  separated (V := V) -> 1 < MAXB <= 68 -> wf s -> k < length (degrees s) -> j < length (degrees s) ->
  1 <= nth j (degrees s) 0 -> (0 < x < 1)%R ->
  exists a b d da db ra rb, let n := length (degrees s) in
    SplitAtPosition s x k = Ok [a; b] /\ DerivativeWRT MAXB s (single n j) = Ok d /\
    SplitAtPosition d x k = Ok [da; db] /\
    spline_scale da (if j =? k then x else 1%R) = Ok ra /\ DerivativeWRT MAXB a (single n j) = Ok ra /\
    spline_scale db (if j =? k then (1 - x)%R else 1%R) = Ok rb /\ DerivativeWRT MAXB b (single n j) = Ok rb.
Proof. exact c75_split. Qed.
Print Assumptions C75_split.
Theorem C75_product : forall (V : Type) (ov : VOps R V) (M : VMod R V) (MAXB : nat) (P : spline R) (Q : spline V) (k : nat),
  separated (V := V) -> 1 < MAXB <= 68 -> wf P -> wf Q -> length (degrees Q) = length (degrees P) ->
  Forall (fun p => p < MAXB) (map2 Nat.add (degrees P) (degrees Q)) ->
  (Z.of_nat (n_coeffs (map2 Nat.add (degrees P) (degrees Q))) < 2 ^ 31)%Z ->
  k < length (degrees P) -> 1 <= nth k (degrees P) 0 -> 1 <= nth k (degrees Q) 0 ->
  exists pq dp dq u v r, let e := single (length (degrees P)) k in
    spline_mul_sv MAXB P Q = Ok pq /\ DerivativeWRT MAXB P e = Ok dp /\ DerivativeWRT MAXB Q e = Ok dq /\
    spline_mul_sv MAXB dp Q = Ok u /\ spline_mul_sv MAXB P dq = Ok v /\
    returns (fun fuel => spline_add (T := R) fuel u v) r /\ DerivativeWRT MAXB pq e = Ok r.
Proof. exact c75_product. Qed.
Print Assumptions C75_product.
Theorem C75_power : forall (MAXB n : nat) (P : spline R) (k : nat),
  1 < MAXB <= 68 -> wf P -> 1 <= n -> Forall (fun p => n * p < MAXB) (degrees P) ->
  k < length (degrees P) -> 1 <= nth k (degrees P) 0 ->
  exists pn pm dp u r, let e := single (length (degrees P)) k in
    RaisePower MAXB P n = Ok pn /\ RaisePower MAXB P (n - 1) = Ok pm /\ DerivativeWRT MAXB P e = Ok dp /\
    spline_mul_ss MAXB pm dp = Ok u /\ spline_scale u (INR n) = Ok r /\ DerivativeWRT MAXB pn e = Ok r.
Proof. exact c75_power. Qed.
Print Assumptions C75_power.
Theorem C75_chain : forall (V : Type) (ov : VOps R V) (M : VMod R V) (MAXB : nat)
  (outer : spline V) (inner : spline (point R (length (degrees outer)))) (k : nat),
  separated (V := V) -> MAXB <= 68 -> wf outer -> wf inner ->
  (forall p j, In p (control_points inner) -> j < length (degrees outer) -> in_unit (coord _ p j)) ->
  Forall (fun p => 1 <= p) (degrees outer) -> k < length (degrees inner) -> 1 <= nth k (degrees inner) 0 ->
  Forall (fun p => list_sum (degrees outer) * p < MAXB) (degrees inner) ->
  Forall (fun p => p < MAXB) (degrees outer) ->
  (Z.of_nat (n_coeffs (map (Nat.mul (list_sum (degrees outer))) (degrees inner))) < 2 ^ 31)%Z ->
  exists r dr ts, let n := length (degrees outer) in let e := single (length (degrees inner)) k in
    Compose MAXB outer inner = Ok r /\ DerivativeWRT MAXB r e = Ok dr /\ length ts = n /\
    (forall j, j < n -> exists t, nth_error ts j = Some t /\ exists dj cj xj dxj,
       DerivativeWRT MAXB outer (single n j) = Ok dj /\ Compose MAXB dj inner = Ok cj /\
       ExtractDimension inner j = Ok xj /\ DerivativeWRT MAXB xj e = Ok dxj /\ spline_mul_sv MAXB dxj cj = Ok t) /\
    sum_of (T := R) ts dr.
Proof. exact c75_chain. Qed.
Print Assumptions C75_chain.
(** The hypotheses of the chain rule hold for a bilinear outer spline and a line in the unit square; the
    same splines over the rationals give both sides of the rule. *)
Example C75_case :
  let outer : spline R := mkSpline [1; 1] 4 [1; 2] [1; -2; 3; 4]%R in
  let inner : spline (point R 2) := mkSpline [1] 2 [1] [(0, (1, tt)); (1, (1 / 2, tt))]%R in
  wf outer /\ wf inner /\ (forall p j, In p (control_points inner) -> j < 2 -> in_unit (coord 2 p j)) /\
  Forall (fun p => 1 <= p) (degrees outer) /\ Forall (fun p => list_sum (degrees outer) * p < 4) (degrees inner) /\
  Forall (fun p => p < 4) (degrees outer) /\
  (Z.of_nat (n_coeffs (map (Nat.mul (list_sum (degrees outer))) (degrees inner))) < 2 ^ 31)%Z /\
  separated (V := R) /\
  (exists r dr d0 d1 c0 c1 x0 x1 dx0 dx1 t0 t1,
     Compose 4 ex_outer ex_inner = Ok r /\ DerivativeWRT 4 r [1] = Ok dr /\
     DerivativeWRT 4 ex_outer (single 2 0) = Ok d0 /\ DerivativeWRT 4 ex_outer (single 2 1) = Ok d1 /\
     Compose 4 d0 ex_inner = Ok c0 /\ Compose 4 d1 ex_inner = Ok c1 /\
     ExtractDimension ex_inner 0 = Ok x0 /\ ExtractDimension ex_inner 1 = Ok x1 /\
     DerivativeWRT 4 x0 [1] = Ok dx0 /\ DerivativeWRT 4 x1 [1] = Ok dx1 /\
     spline_mul_ss (T := Qc) 4 dx0 c0 = Ok t0 /\ spline_mul_ss (T := Qc) 4 dx1 c1 = Ok t1 /\
     spline_add (T := Qc) 9 t0 t1 = Ok dr /\ map (fun c : Qc => this c) (control_points dr) = [0; -4]%Q).
Proof.
  intros outer inner. split; [repeat split; discriminate|]. split; [repeat split; discriminate|]. split.
  { intros p j [<-|[<-|[]]] Hj; (assert (j = 0 \/ j = 1) as [->| ->] by lia); cbn [coord plist nth fst snd];
      split; unfold sle, slt; simpl; match goal with |- context[Rlt_dec ?a ?b] => destruct (Rlt_dec a b); try reflexivity; lra end. }
  split; [repeat constructor|]. split; [repeat constructor|]. split; [repeat constructor|].
  split; [vm_compute; reflexivity|]. split; [apply C75_separated|].
  do 12 eexists. repeat (split; [vm_compute; reflexivity|]). vm_compute. reflexivity.
Qed.
