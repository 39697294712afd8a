(** Properties C17-C19, C21, C22, C58-C60: arithmetic of splines and points, aliasing,
    equality and repeated elevation. *)
From Coq Require Import Arith Lia List ZArith NArith Bool QArith Qcanon.
From Verif Require Import Prelude Scalar Spec SpecSpline Coord ModelBasis ModelSpline ModelPoint Examples ClaimsB.
Import ListNotations.
Local Open Scope nat_scope.

(** Two curves of different degrees. *)
Definition ex_a : spline Qc := mkSpline [1] 2 [1] [Q2Qc 1; Q2Qc 5].
Definition ex_b : spline Qc := mkSpline [2] 3 [1] [Q2Qc 0; Q2Qc 2; Q2Qc 7].

(** C17: operator+; one result for every sufficiently large number of loop iterations. *)
Theorem C17_add : forall (T V : Type) (o : SOps T) (ov : VOps T V) (F : SField T) (M : VMod T V)
  (a b : spline V), wf a -> wf b -> length (degrees a) = length (degrees b) ->
  (Z.of_nat (n_coeffs (map2 Nat.max (degrees a) (degrees b))) < 2 ^ 31)%Z ->
  exists r, returns (fun fuel => spline_add fuel a b) r /\ wf r /\
    degrees r = map2 Nat.max (degrees a) (degrees b) /\
    forall xs : list T, length xs = length (degrees a) ->
      exists x y, Evaluate a xs = Ok x /\ Evaluate b xs = Ok y /\ Evaluate r xs = Ok (vadd x y).
Proof. exact c17_add. Qed.
Print Assumptions C17_add.
Example C17_case : wf ex_a /\ wf ex_b /\ length (degrees ex_a) = length (degrees ex_b) /\
  (Z.of_nat (n_coeffs (map2 Nat.max (degrees ex_a) (degrees ex_b))) < 2 ^ 31)%Z /\
  spline_add 5 ex_a ex_b = Ok (mkSpline [2] 3 [1] [Q2Qc 1; Q2Qc 5; Q2Qc 12]).
Proof. case_. Qed.

(** C18: operator+= and operator-=. *)
Theorem C18_add_assign : forall (T V : Type) (o : SOps T) (ov : VOps T V) (F : SField T) (M : VMod T V)
  (a b : spline V), wf a -> wf b -> length (degrees a) = length (degrees b) ->
  (Z.of_nat (n_coeffs (map2 Nat.max (degrees a) (degrees b))) < 2 ^ 31)%Z ->
  exists r, returns (fun fuel => spline_add_assign fuel a b) r /\
    returns (fun fuel => spline_add fuel a b) r /\ wf r /\
    degrees r = map2 Nat.max (degrees a) (degrees b) /\
    forall xs : list T, length xs = length (degrees a) ->
      exists x y, Evaluate a xs = Ok x /\ Evaluate b xs = Ok y /\ Evaluate r xs = Ok (vadd x y).
Proof. exact c18_add_assign. Qed.
Print Assumptions C18_add_assign.
Theorem C18_sub_assign : forall (T V : Type) (o : SOps T) (ov : VOps T V) (F : SField T) (M : VMod T V)
  (a b : spline V), wf a -> wf b -> length (degrees a) = length (degrees b) ->
  (Z.of_nat (n_coeffs (map2 Nat.max (degrees a) (degrees b))) < 2 ^ 31)%Z ->
  exists r, returns (fun fuel => spline_sub_assign fuel a b) r /\ wf r /\
    degrees r = map2 Nat.max (degrees a) (degrees b) /\
    forall xs : list T, length xs = length (degrees a) ->
      exists x y, Evaluate a xs = Ok x /\ Evaluate b xs = Ok y /\ Evaluate r xs = Ok (vsub x y).
Proof. exact c18_sub_assign. Qed.
Print Assumptions C18_sub_assign.
Example C18_case :
  spline_add_assign 5 ex_b ex_a = Ok (mkSpline [2] 3 [1] [Q2Qc 1; Q2Qc 5; Q2Qc 12]) /\
  spline_sub_assign 5 ex_a ex_b = Ok (mkSpline [2] 3 [1] [Q2Qc 1; Q2Qc 1; Q2Qc (-2)]).
Proof. case_. Qed.

(** C19: operator- does not return when the right operand has the larger degree in some
    direction (the loop elevates the wrong spline); otherwise it is the difference. *)
Theorem C19_sub_refuted : exists a b : spline Qc,
  wf a /\ wf b /\ length (degrees a) = length (degrees b) /\
  forall fuel r, spline_sub fuel a b <> Ok r.
Proof. exact c19_sub_refuted. Qed.
Print Assumptions C19_sub_refuted.
Theorem C19_sub_never_returns : forall (T V : Type) (o : SOps T) (ov : VOps T V)
  (a b : spline V) k, wf a -> length (degrees a) = length (degrees b) -> k < length (degrees a) ->
  nth k (degrees a) 0 < nth k (degrees b) 0 ->
  forall fuel r, spline_sub fuel a b <> Ok r.
Proof. exact c19_sub_never_returns. Qed.
Print Assumptions C19_sub_never_returns.
(** Missing from the full property: right operands with a larger degree in some direction. *)
Theorem C19_sub_partial : forall (T V : Type) (o : SOps T) (ov : VOps T V) (F : SField T) (M : VMod T V)
  (a b : spline V), wf a -> wf b -> Forall2 (fun p q => q <= p) (degrees a) (degrees b) ->
  (Z.of_nat (n_coeffs (degrees a)) < 2 ^ 31)%Z ->
  exists r, returns (fun fuel => spline_sub fuel a b) r /\ wf r /\ degrees r = degrees a /\
    forall xs : list T, length xs = length (degrees a) ->
      exists x y, Evaluate a xs = Ok x /\ Evaluate b xs = Ok y /\ Evaluate r xs = Ok (vsub x y).
Proof. exact c19_sub_partial. Qed.
Print Assumptions C19_sub_partial.
Example C19_case : wf ex_a /\ wf ex_b /\ Forall2 (fun p q => q <= p) (degrees ex_b) (degrees ex_a) /\
  spline_sub 5 ex_b ex_a = Ok (mkSpline [2] 3 [1] [Q2Qc (-1); Q2Qc (-1); Q2Qc 2]) /\
  nth 0 (degrees ex_a) 0 < nth 0 (degrees ex_b) 0.
Proof. case_. Qed.

(** C21: scaling, shifting, negation. *)
Theorem C21_pointwise : forall (T V : Type) (o : SOps T) (ov : VOps T V) (F : SField T) (M : VMod T V)
  (s : spline V) (c : T) (p : V), wf s ->
  acts_pointwise (T := T) s (scale_assign s c) (fun a => vscale c a) /\
  acts_pointwise (T := T) s (spline_scale s c) (fun a => vscale c a) /\
  acts_pointwise (T := T) s (shift_assign s p) (fun a => vadd a p) /\
  acts_pointwise (T := T) s (spline_shift s p) (fun a => vadd a p) /\
  acts_pointwise (T := T) s (unshift_assign s p) (fun a => vsub a p) /\
  acts_pointwise (T := T) s (spline_unshift s p) (fun a => vsub a p) /\
  acts_pointwise (T := T) s (spline_neg s) (fun a => vopp a) /\
  acts_pointwise (T := T) s (point_minus_spline p s) (fun a => vsub p a).
Proof. exact c21_pointwise. Qed.
Print Assumptions C21_pointwise.
Example C21_case : wf ex_s /\
  (exists r, point_minus_spline (Q2Qc 3) ex_s = Ok r /\ nth 0 (control_points r) (Q2Qc 0) = Q2Qc 2).
Proof. split; [case_|]. eexists. split; [vm_compute; reflexivity|]. qc_eq. Qed.

(** C22: aliased arguments. *)
Theorem C22_alias_spline_refuted : exists (s : spline Qc) k c r1 r2 r3 q1 q2 q3,
  wf s /\ get (control_points s) k = Ok c /\
  map_points_self vadd k s = Ok r1 /\ shift_assign s c = Ok q1 /\ r1 <> q1 /\
  map_points_self vsub k s = Ok r2 /\ unshift_assign s c = Ok q2 /\ r2 <> q2 /\
  map_points_self (fun x a => vscale a x) k s = Ok r3 /\ scale_assign s c = Ok q3 /\ r3 <> q3.
Proof. exact c22_alias_spline_refuted. Qed.
Print Assumptions C22_alias_spline_refuted.
Theorem C22_alias_point_refuted : exists (p : point Qc 2) c r q,
  pget 2 p 0 = Ok c /\ point_scale_assign_self p 0 = Ok r /\ point_scale_assign p c = Ok q /\ r <> q.
Proof. exact c22_alias_point_refuted. Qed.
Print Assumptions C22_alias_point_refuted.
(** Missing from the full property: entries behind the aliased one see the new value. *)
Theorem C22_alias_spline_partial : forall (V : Type) (op : V -> V -> V) (d : V) (s : spline V) k c,
  wf s -> get (control_points s) k = Ok c ->
  exists r, map_points_self op k s = Ok r /\ degrees r = degrees s /\
    length (control_points r) = length (control_points s) /\
    forall i, i < length (control_points s) ->
      nth i (control_points r) d =
      op (nth i (control_points s) d) (if i <=? k then c else op c c).
Proof. exact c22_alias_spline_partial. Qed.
Print Assumptions C22_alias_spline_partial.
Theorem C22_alias_last : forall (T V : Type) (o : SOps T) (ov : VOps T V) (op : V -> V -> V) (s : spline V) k c,
  wf s -> get (control_points s) k = Ok c -> S k = length (control_points s) ->
  map_points_self op k s = map_points (fun x => op x c) s.
Proof. exact c22_alias_last. Qed.
Print Assumptions C22_alias_last.
(** Missing from the full property: coordinates behind the aliased one see the new value. *)
Theorem C22_alias_point_partial : forall (T : Type) (o : SOps T) (d : nat) (p : point T d) k, k < d ->
  exists r, point_scale_assign_self p k = Ok r /\
    forall i, i < d -> coord d r i =
      smul (coord d p i) (if i <=? k then coord d p k else smul (coord d p k) (coord d p k)).
Proof. exact c22_alias_point_partial. Qed.
Print Assumptions C22_alias_point_partial.
Theorem C22_alias_point_safe : forall (T : Type) (o : SOps T) (d : nat) (p : point T d),
  (forall k c, pget d p k = Ok c -> point_div_assign_self p k = point_div_assign p c) /\
  point_add_assign_self p = point_add_assign p p /\ point_sub_assign_self p = point_sub_assign p p.
Proof. exact c22_alias_point_safe. Qed.
Print Assumptions C22_alias_point_safe.
Example C22_case : wf ex_s /\ get (control_points ex_s) 8 = Ok (Q2Qc 8) /\
  S 8 = length (control_points ex_s).
Proof. case_. Qed.
(** (2, 3, 5) *= its second coordinate. *)
Example C22_point_case : exists r : point Qc 3,
  point_scale_assign_self ((Q2Qc 2, (Q2Qc 3, (Q2Qc 5, tt))) : point Qc 3) 1 = Ok r /\
  map this (plist 3 r) = map this [Q2Qc 6; Q2Qc 9; Q2Qc 45].
Proof. eexists. split; reflexivity. Qed.

(** C58: class Point. *)
Theorem C58_componentwise : forall (T : Type) (o : SOps T) (F : SField T) (d : nat) (p q : point T d) (c : T),
  (exists r, point_add p q = Ok r /\ forall k, k < d -> coord d r k = sadd (coord d p k) (coord d q k)) /\
  (exists r, point_sub p q = Ok r /\ forall k, k < d -> coord d r k = ssub (coord d p k) (coord d q k)) /\
  (exists r, point_neg p = Ok r /\ forall k, k < d -> coord d r k = sopp (coord d p k)) /\
  (exists r, point_scale p c = Ok r /\ forall k, k < d -> coord d r k = smul c (coord d p k)) /\
  (c <> s0 ->
   exists r, point_div p c = Ok r /\ forall k, k < d -> coord d r k = sdiv (coord d p k) c) /\
  ((forall k, k < d -> coord d p k <> s0) ->
   exists r, scalar_div_point c p = Ok r /\ forall k, k < d -> coord d r k = sdiv c (coord d p k)).
Proof. exact c58_componentwise. Qed.
Print Assumptions C58_componentwise.
Theorem C58_point_module : forall (T : Type) (o : SOps T) (F : SField T) (d : nat) (p q : point T d) (c : T),
  point_add p q = Ok (vadd p q) /\ point_sub p q = Ok (vsub p q) /\
  point_neg p = Ok (vopp p) /\ point_scale p c = Ok (vscale c p).
Proof. exact c58_point_module. Qed.
Print Assumptions C58_point_module.
Theorem C58_dot : forall (T : Type) (o : SOps T) (F : SField T) (d : nat) (p q r : point T d) (c : T),
  point_dot p q = Ok (ssum d (fun k => smul (coord d p k) (coord d q k))) /\
  point_dot p q = point_dot q p /\
  (exists x y, point_dot p r = Ok x /\ point_dot q r = Ok y /\
     point_dot (vadd (vscale c p) q) r = Ok (sadd (smul c x) y)) /\
  point_sqnorm p = point_dot p p.
Proof. exact c58_dot. Qed.
Print Assumptions C58_dot.
Theorem C58_norm : forall (T : Type) (o : SOps T) (F : SField T) (O : SOrder T) (d : nat) (p : point T d),
  exists n, point_sqnorm p = Ok n /\ sle s0 n /\ (n = s0 <-> p = v0).
Proof. exact c58_norm. Qed.
Print Assumptions C58_norm.
Example C58_case :
  let p : point Qc 2 := (Q2Qc 3, (Q2Qc 4, tt)) in
  point_sqnorm p = Ok (Q2Qc 25) /\
  scalar_div_point (Q2Qc 12) p = Ok (Q2Qc 4, (Q2Qc 3, tt)).
Proof. case_. Qed.

(** C59: operator==. *)
Theorem C59_equality : forall (T V : Type) (o : SOps T) (ov : VOps T V) (M : VMod T V) (a b c : spline V),
  (spline_eqb (T := T) a b = true <-> degrees a = degrees b /\ control_points a = control_points b) /\
  spline_eqb (T := T) a a = true /\
  (spline_eqb (T := T) a b = true -> spline_eqb (T := T) b a = true) /\
  (spline_eqb (T := T) a b = true -> spline_eqb (T := T) b c = true -> spline_eqb (T := T) a c = true) /\
  (wf a -> wf b -> spline_eqb (T := T) a b = true -> a = b).
Proof. exact c59_equality. Qed.
Print Assumptions C59_equality.
Theorem C59_evaluate : forall (T V : Type) (o : SOps T) (ov : VOps T V) (F : SField T) (M : VMod T V)
  (a b : spline V), wf a -> wf b -> spline_eqb (T := T) a b = true ->
  forall xs : list T, Evaluate a xs = Evaluate b xs.
Proof. exact c59_evaluate. Qed.
Print Assumptions C59_evaluate.
Example C59_case : spline_eqb ex_s ex_s = true /\ spline_eqb ex_a ex_b = false /\ wf ex_s.
Proof. case_. Qed.

(** C60: order of elevations. *)
Theorem C60_elevation_order : forall (T V : Type) (o : SOps T) (ov : VOps T V) (F : SField T) (M : VMod T V)
  (s : spline V) (ks ks' : list nat),
  wf s -> Forall (fun k => k < length (degrees s)) ks ->
  (forall k, count_occ Nat.eq_dec ks k = count_occ Nat.eq_dec ks' k) ->
  (Z.of_nat (n_coeffs (map (fun k => nth k (degrees s) 0%nat + count_occ Nat.eq_dec ks k)%nat
     (seq 0 (length (degrees s))))) < 2 ^ 31)%Z ->
  exists r, elevate_many s ks = Ok r /\ elevate_many s ks' = Ok r /\ wf r /\
    degrees r = map (fun k => nth k (degrees s) 0 + count_occ Nat.eq_dec ks k) (seq 0 (length (degrees s))) /\
    forall xs : list T, length xs = length (degrees s) -> Evaluate r xs = Evaluate s xs.
Proof. exact c60_elevation_order. Qed.
Print Assumptions C60_elevation_order.
Example C60_case : wf ex_s /\ Forall (fun k => k < length (degrees ex_s)) [0; 1; 0] /\
  (forall k, count_occ Nat.eq_dec [0; 1; 0] k = count_occ Nat.eq_dec [1; 0; 0] k) /\
  exists r, elevate_many ex_s [0; 1; 0] = Ok r /\ elevate_many ex_s [1; 0; 0] = Ok r /\ degrees r = [4; 3].
Proof.
  split; [case_|]. split; [case_|]. split; [intros [|[|k]]; reflexivity|].
  eexists. split; [vm_compute; reflexivity|]. split; [|reflexivity]. qc_eq.
Qed.
