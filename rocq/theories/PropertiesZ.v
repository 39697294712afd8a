(** Property C78: refinement commutes with itself and with the other operations. *)
From Coq Require Import Arith Lia List ZArith NArith Bool QArith Qcanon.
From Verif Require Import Prelude Scalar Spec SpecSpline Coord ModelBasis ModelSpline ModelPoint ModelRational
  Examples PropertiesD ClaimsZ.
Import ListNotations.
Local Open Scope nat_scope.

(** C78: elevation and splitting in any order, and of sums, products, powers and coordinates. *)
Theorem C78_elevate_elevate : forall (T V : Type) (o : SOps T) (ov : VOps T V) (F : SField T) (M : VMod T V)
  (s : spline V) (k j : nat), wf s -> k < length (degrees s) -> j < length (degrees s) ->
  (Z.of_nat (n_coeffs (upd_at j S (upd_at k S (degrees s)))) < 2 ^ 31)%Z ->
  exists a b r, OrderElevate (T := T) s k = Ok a /\ OrderElevate (T := T) s j = Ok b /\
    OrderElevate (T := T) a j = Ok r /\ OrderElevate (T := T) b k = Ok r.
Proof. exact c78_elevate_elevate. Qed.
Print Assumptions C78_elevate_elevate.
Theorem C78_elevate_split : forall (T V : Type) (o : SOps T) (ov : VOps T V) (F : SField T) (M : VMod T V) (O : SOrder T)
  (s : spline V) (k j : nat) (x : T), wf s -> k < length (degrees s) -> j < length (degrees s) ->
  (Z.of_nat (n_coeffs (upd_at k S (degrees s))) < 2 ^ 31)%Z -> slt s0 x -> slt x s1 ->
  exists e a b ea eb, OrderElevate (T := T) s k = Ok e /\ SplitAtPosition s x j = Ok [a; b] /\
    OrderElevate (T := T) a k = Ok ea /\ OrderElevate (T := T) b k = Ok eb /\ SplitAtPosition e x j = Ok [ea; eb].
Proof. exact c78_elevate_split. Qed.
Print Assumptions C78_elevate_split.
Theorem C78_split_split : forall (T V : Type) (o : SOps T) (ov : VOps T V) (F : SField T) (M : VMod T V) (O : SOrder T)
  (s : spline V) (k j : nat) (x y : T), wf s -> k < length (degrees s) -> j < length (degrees s) -> k <> j ->
  slt s0 x -> slt x s1 -> slt s0 y -> slt y s1 ->
  exists a b c d ac ad bc bd, SplitAtPosition s x k = Ok [a; b] /\ SplitAtPosition s y j = Ok [c; d] /\
    SplitAtPosition a y j = Ok [ac; ad] /\ SplitAtPosition b y j = Ok [bc; bd] /\
    SplitAtPosition c x k = Ok [ac; bc] /\ SplitAtPosition d x k = Ok [ad; bd].
Proof. exact c78_split_split. Qed.
Print Assumptions C78_split_split.
Theorem C78_split_order : forall (T V : Type) (o : SOps T) (ov : VOps T V) (F : SField T) (M : VMod T V) (O : SOrder T)
  (s : spline V) (k : nat) (x y : T), wf s -> k < length (degrees s) -> slt s0 x -> slt x y -> slt y s1 ->
  exists a b c b1 d, SplitAtPosition s x k = Ok [a; b] /\ SplitAtPosition s y k = Ok [c; d] /\
    SplitAtPosition c (sdiv x y) k = Ok [a; b1] /\ SplitAtPosition b (sdiv (ssub y x) (ssub s1 x)) k = Ok [b1; d] /\
    SplitAtPositions s [x; y] k = Ok [a; b1; d].
Proof. exact c78_split_order. Qed.
Print Assumptions C78_split_order.
Theorem C78_sum : forall (T V : Type) (o : SOps T) (ov : VOps T V) (F : SField T) (M : VMod T V) (O : SOrder T)
  (a b : spline V) (k : nat) (x : T), wf a -> wf b -> length (degrees b) = length (degrees a) -> k < length (degrees a) ->
  (Z.of_nat (n_coeffs (upd_at k S (map2 Nat.max (degrees a) (degrees b)))) < 2 ^ 31)%Z -> slt s0 x -> slt x s1 ->
  exists c ea eb ec a1 a2 b1 b2 c1 c2, returns (fun fuel => spline_add (T := T) fuel a b) c /\
    OrderElevate (T := T) a k = Ok ea /\ OrderElevate (T := T) b k = Ok eb /\ OrderElevate (T := T) c k = Ok ec /\
    returns (fun fuel => spline_add (T := T) fuel ea eb) ec /\
    SplitAtPosition a x k = Ok [a1; a2] /\ SplitAtPosition b x k = Ok [b1; b2] /\ SplitAtPosition c x k = Ok [c1; c2] /\
    returns (fun fuel => spline_add (T := T) fuel a1 b1) c1 /\ returns (fun fuel => spline_add (T := T) fuel a2 b2) c2.
Proof. exact c78_sum. Qed.
Print Assumptions C78_sum.
Theorem C78_product : forall (T V : Type) (o : SOps T) (ov : VOps T V) (F : SField T) (M : VMod T V) (O : SOrder T)
  (MAXB : nat) (P : spline T) (Q : spline V) (k : nat) (x : T), MAXB <= 68 -> wf P -> wf Q ->
  length (degrees Q) = length (degrees P) -> k < length (degrees P) ->
  Forall (fun p => p < MAXB) (upd_at k S (map2 Nat.add (degrees P) (degrees Q))) ->
  (Z.of_nat (n_coeffs (upd_at k S (map2 Nat.add (degrees P) (degrees Q)))) < 2 ^ 31)%Z -> slt s0 x -> slt x s1 ->
  exists r eP eQ er P1 P2 Q1 Q2 r1 r2, spline_mul_sv MAXB P Q = Ok r /\
    OrderElevate (T := T) P k = Ok eP /\ OrderElevate (T := T) Q k = Ok eQ /\ OrderElevate (T := T) r k = Ok er /\
    spline_mul_sv MAXB eP Q = Ok er /\ spline_mul_sv MAXB P eQ = Ok er /\
    SplitAtPosition P x k = Ok [P1; P2] /\ SplitAtPosition Q x k = Ok [Q1; Q2] /\ SplitAtPosition r x k = Ok [r1; r2] /\
    spline_mul_sv MAXB P1 Q1 = Ok r1 /\ spline_mul_sv MAXB P2 Q2 = Ok r2.
Proof. exact c78_product. Qed.
Print Assumptions C78_product.
Theorem C78_extract : forall (T : Type) (o : SOps T) (F : SField T) (O : SOrder T) (d i : nat)
  (a b : spline (point T d)) (k : nat) (x c : T), wf a -> wf b -> i < d -> length (degrees b) = length (degrees a) ->
  k < length (degrees a) -> (Z.of_nat (n_coeffs (map2 Nat.max (degrees a) (degrees b))) < 2 ^ 31)%Z ->
  (Z.of_nat (n_coeffs (upd_at k S (degrees a))) < 2 ^ 31)%Z -> slt s0 x -> slt x s1 ->
  exists ai bi s si e ei a1 a2 i1 i2 ca cai, ExtractDimension a i = Ok ai /\ ExtractDimension b i = Ok bi /\
    returns (fun fuel => spline_add (T := T) fuel a b) s /\ ExtractDimension s i = Ok si /\
    returns (fun fuel => spline_add (T := T) fuel ai bi) si /\
    OrderElevate (T := T) a k = Ok e /\ ExtractDimension e i = Ok ei /\ OrderElevate (T := T) ai k = Ok ei /\
    SplitAtPosition a x k = Ok [a1; a2] /\ ExtractDimension a1 i = Ok i1 /\ ExtractDimension a2 i = Ok i2 /\
    SplitAtPosition ai x k = Ok [i1; i2] /\
    spline_scale a c = Ok ca /\ ExtractDimension ca i = Ok cai /\ spline_scale ai c = Ok cai.
Proof. exact c78_extract. Qed.
Print Assumptions C78_extract.
Theorem C78_power : forall (T : Type) (o : SOps T) (F : SField T) (O : SOrder T) (MAXB n : nat) (P : spline T) (k : nat) (x : T),
  MAXB <= 68 -> wf P -> k < length (degrees P) -> Forall (fun p => n * p < MAXB) (degrees P) -> slt s0 x -> slt x s1 ->
  exists r P1 P2 r1 r2, RaisePower MAXB P n = Ok r /\ SplitAtPosition P x k = Ok [P1; P2] /\
    SplitAtPosition r x k = Ok [r1; r2] /\ RaisePower MAXB P1 n = Ok r1 /\ RaisePower MAXB P2 n = Ok r2.
Proof. exact c78_power. Qed.
Print Assumptions C78_power.
Example C78_case : wf ex_a /\ wf ex_b /\ wf ex_d /\
  (exists a b r, OrderElevate (T := Qc) ex_a 0 = Ok a /\ OrderElevate (T := Qc) ex_a 1 = Ok b /\
     OrderElevate (T := Qc) a 1 = Ok r /\ OrderElevate (T := Qc) b 0 = Ok r /\ degrees r = [2; 2]) /\
  (exists a b c b1 d, SplitAtPosition ex_a (Q2Qc (1 # 4)) 1 = Ok [a; b] /\ SplitAtPosition ex_a (Q2Qc (1 # 2)) 1 = Ok [c; d] /\
     SplitAtPosition c (Q2Qc (1 # 2)) 1 = Ok [a; b1] /\ SplitAtPosition b (Q2Qc (1 # 3)) 1 = Ok [b1; d] /\
     SplitAtPositions ex_a [Q2Qc (1 # 4); Q2Qc (1 # 2)] 1 = Ok [a; b1; d]) /\
  (exists r eP er, spline_mul_sv (T := Qc) 4 ex_b ex_d = Ok r /\ OrderElevate (T := Qc) ex_b 1 = Ok eP /\
     OrderElevate (T := Qc) r 1 = Ok er /\ spline_mul_sv (T := Qc) 4 eP ex_d = Ok er /\ degrees er = [0; 3]).
Proof.
  do 3 (split; [case_|]). split; [do 3 eexists; repeat (split; [vm_compute; reflexivity|]); case_|].
  split; [do 5 eexists; repeat (split; [vm_compute; reflexivity|]); case_|].
  do 3 eexists. repeat (split; [vm_compute; reflexivity|]). case_.
Qed.
