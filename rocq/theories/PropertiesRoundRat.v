(** Properties C92-C97: rounding errors and seams of rational splines. *)
From Coq Require Import Arith Lia List Bool ZArith Reals Lra.
From Verif Require Import Prelude Scalar Spec SpecSpline SpecRational SpecSeam SpecSeamRat Coord ModelBasis ModelSpline ModelPoint ModelRational
  ModelRound ModelRoundMul ModelRoundRat SpecRound SpecRoundMul SpecRoundRat ProofRound ProofEval ProofSplit ProofArith ProofRational
  ClaimsU ClaimsRoundRat ClaimsSeamRat PropertiesU.
Import ListNotations.
Local Open Scope R_scope.

(** The quarter circle ((1 - t^2) / (1 + t^2), 2 t / (1 + t^2)) and the function 1 + 2 t / (1 + t). *)
Definition arc : rspline R (point R 2) :=
  mkR (mkSpline [2%nat] 3 [1%nat] [(1, (0, tt)); (1, (1, tt)); (0, (2, tt))]) (mkSpline [2%nat] 3 [1%nat] [1; 1; 2]).
Definition ratio : rspline R R := mkR (mkSpline [1%nat] 2 [1%nat] [1; 4]) (mkSpline [1%nat] 2 [1%nat] [1; 2]).
Lemma arc_wf : rwf arc. Proof. repeat split; discriminate. Qed.
Lemma ratio_wf : rwf ratio. Proof. repeat split; discriminate. Qed.
Lemma arc_weights : positive_weights arc. Proof. repeat constructor; lra. Qed.
Lemma ratio_weights : positive_weights ratio. Proof. repeat constructor; lra. Qed.
Lemma arc_bound c : (c < 2)%nat -> rat_bound arc c 1.
Proof.
  intros Hc i Hi. change (n_coeffs (rdegrees arc)) with 3%nat in Hi.
  destruct c as [|[|c]]; [| |lia]; destruct i as [|[|[|i]]]; try lia; unfold coord; cbn [arc weighted_spline weight_function control_points nth plist fst snd]; rewrite Rabs_right; lra.
Qed.
Lemma ratio_bound : rat_bound_s ratio 2.
Proof. intros i Hi. change (n_coeffs (rdegrees ratio)) with 2%nat in Hi. destruct i as [|[|i]]; [| |lia]; cbn; rewrite Rabs_right; lra. Qed.
Lemma half_box : in_unit_box [1 / 2]. Proof. constructor; [lra|constructor]. Qed.
Lemma small_error g B e : 0 <= g <= 1 / 3 -> 0 <= B -> 3 * g * B <= e -> quotient_error g B <= e.
Proof.
  intros Hg HB H. eapply Rle_trans; [|exact H]. unfold quotient_error.
  apply (Rmult_le_reg_r (1 - g)); [lra|]. unfold Rdiv. rewrite Rmult_assoc, Rinv_l, Rmult_1_r by lra.
  assert (0 <= g * B * (1 / 3 - g)) by (apply Rmult_le_pos; [apply Rmult_le_pos|]; lra). nra.
Qed.

(** C92: subdivision of rational splines in rounded arithmetic. *)
Theorem C92_split : forall p rnd d (r : rspline R (point R d)) x k, (0 < p)%nat -> nearest p rnd -> rwf r ->
  (k < length (rdegrees r))%nat -> 0 < x < 1 -> positive_weights r ->
  exists a b, R_SplitAtPosition_rnd rnd r x k = Ok [a; b] /\ rwf a /\ rwf b /\ rdegrees a = rdegrees r /\ rdegrees b = rdegrees r /\
    let g := gamma p (3 * nth k (rdegrees r) 0%nat) in
    (g < 1 -> positive_weights a /\ positive_weights b /\
     forall c B, (c < d)%nat -> rat_bound r c B ->
       rat_bound a c (quotient_growth g B) /\ rat_bound b c (quotient_growth g B) /\
       forall xs, length xs = length (rdegrees r) -> in_unit_box xs ->
         Rabs (coord d (rvalue a xs) c - coord d (rvalue r (upd_list xs k (x * nth k xs 0))) c) <= quotient_error g B /\
         Rabs (coord d (rvalue b xs) c - coord d (rvalue r (upd_list xs k (x + (1 - x) * nth k xs 0))) c) <= quotient_error g B).
Proof. exact c92_split. Qed.
Print Assumptions C92_split.
Theorem C92_split_scalar : forall p rnd (r : rspline R R) x k, (0 < p)%nat -> nearest p rnd -> rwf r ->
  (k < length (rdegrees r))%nat -> 0 < x < 1 -> positive_weights r ->
  exists a b, R_SplitAtPosition_rnd_s rnd r x k = Ok [a; b] /\ rwf a /\ rwf b /\ rdegrees a = rdegrees r /\ rdegrees b = rdegrees r /\
    let g := gamma p (3 * nth k (rdegrees r) 0%nat) in
    (g < 1 -> positive_weights a /\ positive_weights b /\
     forall B, rat_bound_s r B ->
       rat_bound_s a (quotient_growth g B) /\ rat_bound_s b (quotient_growth g B) /\
       forall xs, length xs = length (rdegrees r) -> in_unit_box xs ->
         Rabs (rvalue a xs - rvalue r (upd_list xs k (x * nth k xs 0))) <= quotient_error g B /\
         Rabs (rvalue b xs - rvalue r (upd_list xs k (x + (1 - x) * nth k xs 0))) <= quotient_error g B).
Proof. exact c92_split_scalar. Qed.
Print Assumptions C92_split_scalar.
(** The quarter circle cut at 1/2 in double precision. *)
Example C92_case :
  (exists a b, R_SplitAtPosition_rnd (round_to 53) arc (1 / 2) 0 = Ok [a; b] /\ positive_weights a /\
    Rabs (coord 2 (rvalue a [1 / 2]) 0 - 15 / 17) <= 36 / 2 ^ 53) /\
  exists a b, R_SplitAtPosition_rnd_s (round_to 53) ratio (1 / 2) 0 = Ok [a; b] /\
    Rabs (rvalue b [1 / 2] - 13 / 7) <= 36 / 2 ^ 53.
Proof.
  assert (HR : nearest 53 (round_to 53)) by (apply nearest_round_to; lia). split.
  - assert (G : 0 <= gamma 53 6 <= 2 * INR 6 * / 2 ^ 53) by (apply C71_gamma; simpl; lra). simpl in G.
    destruct (C92_split 53 (round_to 53) 2 arc (1 / 2) 0) as (a & b & E & _ & _ & _ & _ & K); auto using arc_wf, arc_weights; try lia; try lra; try (cbn; lia).
    exists a, b. split; [exact E|]. change (3 * nth 0 (rdegrees arc) 0)%nat with 6%nat in K. cbv zeta in K.
    destruct K as (P & _ & K); [lra|]. split; [exact P|].
    destruct (K 0%nat 1 ltac:(lia) (arc_bound 0 ltac:(lia))) as (_ & _ & V). destruct (V [1 / 2] eq_refl half_box) as (V1 & _).
    eapply Rle_trans; [|eapply Rle_trans; [exact V1|apply small_error; lra]]. right. f_equal. f_equal.
    unfold coord. cbn. field.
  - assert (G : 0 <= gamma 53 3 <= 2 * INR 3 * / 2 ^ 53) by (apply C71_gamma; simpl; lra). simpl in G.
    destruct (C92_split_scalar 53 (round_to 53) ratio (1 / 2) 0) as (a & b & E & _ & _ & _ & _ & K); auto using ratio_wf, ratio_weights; try lia; try lra; try (cbn; lia).
    exists a, b. split; [exact E|]. change (3 * nth 0 (rdegrees ratio) 0)%nat with 3%nat in K. cbv zeta in K.
    destruct K as (_ & _ & K); [lra|]. destruct (K 2 ratio_bound) as (_ & _ & V). destruct (V [1 / 2] eq_refl half_box) as (_ & V1).
    eapply Rle_trans; [|eapply Rle_trans; [exact V1|apply small_error; lra]]. right. f_equal. f_equal. cbn. field.
Qed.

(** C93: degree elevation of rational splines in rounded arithmetic. *)
Theorem C93_elevate : forall p rnd d (r : rspline R (point R d)) k, (0 < p)%nat -> nearest p rnd -> rwf r ->
  (k < length (rdegrees r))%nat -> positive_weights r -> (Z.of_nat (nth k (rdegrees r) 0%nat + 1) < 2 ^ Z.of_nat p)%Z ->
  (Z.of_nat (n_coeffs (upd_list (rdegrees r) k (S (nth k (rdegrees r) 0%nat)))) < 2 ^ 31)%Z ->
  exists e, R_OrderElevate_rnd rnd r k = Ok e /\ rwf e /\ rdegrees e = upd_list (rdegrees r) k (S (nth k (rdegrees r) 0%nat)) /\
    let g := gamma p (2 * nth k (rdegrees r) 0%nat + 3) in
    (g < 1 -> positive_weights e /\
     forall c B, (c < d)%nat -> rat_bound r c B ->
       rat_bound e c (quotient_growth g B) /\
       forall xs, length xs = length (rdegrees r) -> in_unit_box xs ->
         Rabs (coord d (rvalue e xs) c - coord d (rvalue r xs) c) <= quotient_error g B).
Proof. exact c93_elevate. Qed.
Print Assumptions C93_elevate.
Theorem C93_elevate_scalar : forall p rnd (r : rspline R R) k, (0 < p)%nat -> nearest p rnd -> rwf r ->
  (k < length (rdegrees r))%nat -> positive_weights r -> (Z.of_nat (nth k (rdegrees r) 0%nat + 1) < 2 ^ Z.of_nat p)%Z ->
  (Z.of_nat (n_coeffs (upd_list (rdegrees r) k (S (nth k (rdegrees r) 0%nat)))) < 2 ^ 31)%Z ->
  exists e, R_OrderElevate_rnd_s rnd r k = Ok e /\ rwf e /\ rdegrees e = upd_list (rdegrees r) k (S (nth k (rdegrees r) 0%nat)) /\
    let g := gamma p (2 * nth k (rdegrees r) 0%nat + 3) in
    (g < 1 -> positive_weights e /\
     forall B, rat_bound_s r B ->
       rat_bound_s e (quotient_growth g B) /\
       forall xs, length xs = length (rdegrees r) -> in_unit_box xs ->
         Rabs (rvalue e xs - rvalue r xs) <= quotient_error g B).
Proof. exact c93_elevate_scalar. Qed.
Print Assumptions C93_elevate_scalar.
(** The quarter circle as a cubic, and a quotient of linear functions as one of quadratic functions. *)
Example C93_case :
  (exists e, R_OrderElevate_rnd (round_to 53) arc 0 = Ok e /\ rdegrees e = [3%nat] /\ positive_weights e /\
    Rabs (coord 2 (rvalue e [1 / 2]) 1 - 4 / 5) <= 42 / 2 ^ 53) /\
  exists e, R_OrderElevate_rnd_s (round_to 53) ratio 0 = Ok e /\ rdegrees e = [2%nat] /\ Rabs (rvalue e [1 / 2] - 5 / 3) <= 60 / 2 ^ 53.
Proof.
  assert (HR : nearest 53 (round_to 53)) by (apply nearest_round_to; lia). split.
  - assert (G : 0 <= gamma 53 7 <= 2 * INR 7 * / 2 ^ 53) by (apply C71_gamma; simpl; lra). simpl in G.
    destruct (C93_elevate 53 (round_to 53) 2 arc 0) as (e & E & _ & D & K); auto using arc_wf, arc_weights; try lia; try (cbn; lia).
    exists e. split; [exact E|]. split; [exact D|]. change (2 * nth 0 (rdegrees arc) 0 + 3)%nat with 7%nat in K. cbv zeta in K.
    destruct K as (P & K); [lra|]. split; [exact P|].
    destruct (K 1%nat 1 ltac:(lia) (arc_bound 1 ltac:(lia))) as (_ & V). specialize (V [1 / 2] eq_refl half_box).
    eapply Rle_trans; [|eapply Rle_trans; [exact V|apply small_error; lra]]. right. f_equal. f_equal.
    unfold coord. cbn. field.
  - assert (G : 0 <= gamma 53 5 <= 2 * INR 5 * / 2 ^ 53) by (apply C71_gamma; simpl; lra). simpl in G.
    destruct (C93_elevate_scalar 53 (round_to 53) ratio 0) as (e & E & _ & D & K); auto using ratio_wf, ratio_weights; try lia; try (cbn; lia).
    exists e. split; [exact E|]. split; [exact D|]. change (2 * nth 0 (rdegrees ratio) 0 + 3)%nat with 5%nat in K. cbv zeta in K.
    destruct K as (_ & K); [lra|]. destruct (K 2 ratio_bound) as (_ & V). specialize (V [1 / 2] eq_refl half_box).
    eapply Rle_trans; [|eapply Rle_trans; [exact V|apply small_error; lra]]. right. f_equal. f_equal. cbn. field.
Qed.

(** C94: products of rational splines in rounded arithmetic. *)
Theorem C94_product : forall p rnd MAXB (r s : rspline R R), (0 < p)%nat -> nearest p rnd -> (MAXB <= 68)%nat -> rwf r -> rwf s ->
  length (rdegrees s) = length (rdegrees r) -> Forall (fun k => k < MAXB)%nat (map2 Nat.add (rdegrees r) (rdegrees s)) ->
  positive_weights r -> positive_weights s ->
  exists q, R_mul_rnd_ss rnd MAXB r s = Ok q /\ rwf q /\ rdegrees q = map2 Nat.add (rdegrees r) (rdegrees s) /\
    let g := gamma p (product_roundings (rdegrees r) (rdegrees s)) in
    (g < 1 -> positive_weights q /\
     forall A B, rat_bound_s r A -> rat_bound_s s B ->
       rat_bound_s q (quotient_growth g (A * B)) /\
       forall xs, length xs = length (rdegrees r) -> in_unit_box xs ->
         Rabs (rvalue q xs - rvalue r xs * rvalue s xs) <= quotient_error g (A * B)).
Proof. exact c94_product. Qed.
Print Assumptions C94_product.
Theorem C94_product_point_scalar : forall p rnd MAXB d (r : rspline R (point R d)) (s : rspline R R), (0 < p)%nat -> nearest p rnd -> (MAXB <= 68)%nat -> rwf r -> rwf s ->
  length (rdegrees s) = length (rdegrees r) -> Forall (fun k => k < MAXB)%nat (map2 Nat.add (rdegrees r) (rdegrees s)) ->
  positive_weights r -> positive_weights s ->
  exists q, R_mul_rnd_ps rnd MAXB r s = Ok q /\ rwf q /\ rdegrees q = map2 Nat.add (rdegrees r) (rdegrees s) /\
    let g := gamma p (product_roundings (rdegrees r) (rdegrees s)) in
    (g < 1 -> positive_weights q /\
     forall c A B, (c < d)%nat -> rat_bound r c A -> rat_bound_s s B ->
       rat_bound q c (quotient_growth g (A * B)) /\
       forall xs, length xs = length (rdegrees r) -> in_unit_box xs ->
         Rabs (coord d (rvalue q xs) c - rvalue s xs * coord d (rvalue r xs) c) <= quotient_error g (A * B)).
Proof. exact c94_product_point_scalar. Qed.
Print Assumptions C94_product_point_scalar.
Theorem C94_product_dot : forall p rnd MAXB d (r s : rspline R (point R d)), (0 < p)%nat -> nearest p rnd -> (MAXB <= 68)%nat -> rwf r -> rwf s ->
  length (rdegrees s) = length (rdegrees r) -> Forall (fun k => k < MAXB)%nat (map2 Nat.add (rdegrees r) (rdegrees s)) ->
  positive_weights r -> positive_weights s ->
  exists q, R_mul_rnd_pp rnd MAXB r s = Ok q /\ rwf q /\ rdegrees q = map2 Nat.add (rdegrees r) (rdegrees s) /\
    let g := gamma p (d + product_roundings (rdegrees r) (rdegrees s)) in
    (g < 1 -> positive_weights q /\
     forall A B, 0 <= A -> 0 <= B -> (forall c, (c < d)%nat -> rat_bound r c A) -> (forall c, (c < d)%nat -> rat_bound s c B) ->
       rat_bound_s q (quotient_growth g (INR d * (A * B))) /\
       forall xs, length xs = length (rdegrees r) -> in_unit_box xs ->
         exists x, point_dot (rvalue r xs) (rvalue s xs) = Ok x /\ Rabs (rvalue q xs - x) <= quotient_error g (INR d * (A * B))).
Proof. exact c94_product_dot. Qed.
Print Assumptions C94_product_dot.
(** The square of a function, and the circle times itself, which is 1 everywhere. *)
Example C94_case :
  (exists q, R_mul_rnd_ss (round_to 53) 5 ratio ratio = Ok q /\ rdegrees q = [2%nat] /\ Rabs (rvalue q [1 / 2] - 25 / 9) <= 216 / 2 ^ 53) /\
  (exists q, R_mul_rnd_ps (round_to 53) 5 arc ratio = Ok q /\ rdegrees q = [3%nat] /\ Rabs (coord 2 (rvalue q [1 / 2]) 0 - 1) <= 300 / 2 ^ 53) /\
  exists q, R_mul_rnd_pp (round_to 53) 5 arc arc = Ok q /\ rdegrees q = [4%nat] /\ Rabs (rvalue q [1 / 2] - 1) <= 300 / 2 ^ 53.
Proof.
  assert (HR : nearest 53 (round_to 53)) by (apply nearest_round_to; lia). split; [|split].
  - assert (G : 0 <= gamma 53 9 <= 2 * INR 9 * / 2 ^ 53) by (apply C71_gamma; simpl; lra). simpl in G.
    destruct (C94_product 53 (round_to 53) 5 ratio ratio) as (q & E & _ & D & K); auto using ratio_wf, ratio_weights; try lia; try (repeat constructor; cbn; lia).
    exists q. split; [exact E|]. split; [exact D|]. change (product_roundings (rdegrees ratio) (rdegrees ratio)) with 9%nat in K. cbv zeta in K.
    destruct K as (_ & K); [lra|]. destruct (K 2 2 ratio_bound ratio_bound) as (_ & V). specialize (V [1 / 2] eq_refl half_box).
    eapply Rle_trans; [|eapply Rle_trans; [exact V|apply small_error; lra]]. right. f_equal. f_equal. cbn. field.
  - destruct (C94_product_point_scalar 53 (round_to 53) 5 2 arc ratio) as (q & E & _ & D & K); auto using arc_wf, arc_weights, ratio_wf, ratio_weights; try lia; try (repeat constructor; cbn; lia).
    exists q. split; [exact E|]. split; [exact D|]. 
    assert (G : 0 <= gamma 53 (product_roundings (rdegrees arc) (rdegrees ratio)) <= 2 * INR (product_roundings (rdegrees arc) (rdegrees ratio)) * / 2 ^ 53) by (apply C71_gamma; simpl; lra).
    simpl INR in G. cbv zeta in K.
    destruct K as (_ & K); [lra|]. destruct (K 0%nat 1 2 ltac:(lia) (arc_bound 0 ltac:(lia)) ratio_bound) as (_ & V). specialize (V [1 / 2] eq_refl half_box).
    eapply Rle_trans; [|eapply Rle_trans; [exact V|apply small_error; lra]]. right. f_equal. f_equal. unfold coord. cbn. field.
  - destruct (C94_product_dot 53 (round_to 53) 5 2 arc arc) as (q & E & _ & D & K); auto using arc_wf, arc_weights; try lia; try (repeat constructor; cbn; lia).
    exists q. split; [exact E|]. split; [exact D|]. 
    assert (G : 0 <= gamma 53 (2 + product_roundings (rdegrees arc) (rdegrees arc)) <= 2 * INR (2 + product_roundings (rdegrees arc) (rdegrees arc)) * / 2 ^ 53) by (apply C71_gamma; simpl; lra).
    simpl INR in G. cbv zeta in K.
    destruct K as (_ & K); [lra|]. destruct (K 1 1 ltac:(lra) ltac:(lra) arc_bound arc_bound) as (_ & V). destruct (V [1 / 2] eq_refl half_box) as (x & Ex & V1).
    assert (x = 1). { cbn in Ex. injection Ex as <-. field. }
    subst x. assert (I2 : INR 2 = 2) by (simpl; lra). rewrite I2 in V1. eapply Rle_trans; [exact V1|apply small_error; lra].
Qed.

(** C95: sums and differences of rational splines in rounded arithmetic. *)
Theorem C95_sum : forall p rnd MAXB fuel d (r s : rspline R (point R d)), (0 < p)%nat -> nearest p rnd -> (MAXB <= 68)%nat -> (2 <= fuel)%nat -> rwf r -> rwf s ->
  length (rdegrees s) = length (rdegrees r) -> Forall (fun k => k < MAXB)%nat (map2 Nat.add (rdegrees r) (rdegrees s)) ->
  positive_weights r -> positive_weights s ->
  exists q, R_add_rnd rnd MAXB fuel r s = Ok q /\ R_add_assign_rnd rnd MAXB fuel r s = Ok q /\ rwf q /\
    (rdegrees q = rdegrees r \/ rdegrees q = map2 Nat.add (rdegrees r) (rdegrees s)) /\
    let g := gamma p (product_roundings (rdegrees r) (rdegrees s) + 1) in
    (g < 1 -> positive_weights q /\
     forall c A B, (c < d)%nat -> rat_bound r c A -> rat_bound s c B ->
       rat_bound q c (quotient_growth g (A + B)) /\
       forall xs, length xs = length (rdegrees r) -> in_unit_box xs ->
         Rabs (coord d (rvalue q xs) c - (coord d (rvalue r xs) c + coord d (rvalue s xs) c)) <= quotient_error g (A + B)).
Proof. exact c95_sum. Qed.
Print Assumptions C95_sum.
Theorem C95_difference : forall p rnd MAXB fuel d (r s : rspline R (point R d)), (0 < p)%nat -> nearest p rnd -> (MAXB <= 68)%nat -> (2 <= fuel)%nat -> rwf r -> rwf s ->
  length (rdegrees s) = length (rdegrees r) -> Forall (fun k => k < MAXB)%nat (map2 Nat.add (rdegrees r) (rdegrees s)) ->
  positive_weights r -> positive_weights s ->
  exists q, R_sub_rnd rnd MAXB fuel r s = Ok q /\ R_sub_assign_rnd rnd MAXB fuel r s = Ok q /\ rwf q /\
    (rdegrees q = rdegrees r \/ rdegrees q = map2 Nat.add (rdegrees r) (rdegrees s)) /\
    let g := gamma p (product_roundings (rdegrees r) (rdegrees s) + 1) in
    (g < 1 -> positive_weights q /\
     forall c A B, (c < d)%nat -> rat_bound r c A -> rat_bound s c B ->
       rat_bound q c (quotient_growth g (A + B)) /\
       forall xs, length xs = length (rdegrees r) -> in_unit_box xs ->
         Rabs (coord d (rvalue q xs) c - (coord d (rvalue r xs) c - coord d (rvalue s xs) c)) <= quotient_error g (A + B)).
Proof. exact c95_difference. Qed.
Print Assumptions C95_difference.
(** The quarter circle plus, and minus, a curve with other weights. *)
Example C95_case :
  let line : rspline R (point R 2) := mkR (mkSpline [1%nat] 2 [1%nat] [(1, (0, tt)); (4, (2, tt))]) (mkSpline [1%nat] 2 [1%nat] [1; 2]) in
  rwf line /\ positive_weights line /\ rat_bound line 0 2 /\
  (exists q, R_add_rnd (round_to 53) 5 2 arc line = Ok q /\ Rabs (coord 2 (rvalue q [1 / 2]) 0 - (3 / 5 + 5 / 3)) <= 400 / 2 ^ 53) /\
  (exists q, R_sub_rnd (round_to 53) 5 2 arc line = Ok q /\ Rabs (coord 2 (rvalue q [1 / 2]) 0 - (3 / 5 - 5 / 3)) <= 400 / 2 ^ 53) /\
  exists q, R_add_rnd (round_to 53) 5 2 arc arc = Ok q /\ Rabs (coord 2 (rvalue q [1 / 2]) 0 - 6 / 5) <= 400 / 2 ^ 53.
Proof.
  intros line. assert (HR : nearest 53 (round_to 53)) by (apply nearest_round_to; lia).
  assert (W : rwf line) by (repeat split; discriminate). assert (P : positive_weights line) by (repeat constructor; lra).
  assert (B : rat_bound line 0 2).
  { intros i Hi. change (n_coeffs (rdegrees line)) with 2%nat in Hi.
    destruct i as [|[|i]]; try lia; unfold coord; cbn [line weighted_spline weight_function control_points nth plist fst snd]; rewrite Rabs_right; lra. }
  do 3 (split; [assumption|]).
  assert (G : 0 <= gamma 53 (product_roundings (rdegrees arc) (rdegrees line) + 1) <= 2 * INR (product_roundings (rdegrees arc) (rdegrees line) + 1) * / 2 ^ 53) by (apply C71_gamma; simpl; lra).
  assert (G' : 0 <= gamma 53 (product_roundings (rdegrees arc) (rdegrees arc) + 1) <= 2 * INR (product_roundings (rdegrees arc) (rdegrees arc) + 1) * / 2 ^ 53) by (apply C71_gamma; simpl; lra).
  simpl INR in G, G'. split; [|split].
  - destruct (C95_sum 53 (round_to 53) 5 2 2 arc line) as (q & E & _ & _ & _ & K); auto using arc_wf, arc_weights; try lia; try (repeat constructor; cbn; lia).
    exists q. split; [exact E|]. cbv zeta in K. destruct K as (_ & K); [lra|].
    destruct (K 0%nat 1 2 ltac:(lia) (arc_bound 0 ltac:(lia)) B) as (_ & V). specialize (V [1 / 2] eq_refl half_box).
    eapply Rle_trans; [|eapply Rle_trans; [exact V|apply small_error; lra]]. right. f_equal. f_equal. unfold coord. cbn. field.
  - destruct (C95_difference 53 (round_to 53) 5 2 2 arc line) as (q & E & _ & _ & _ & K); auto using arc_wf, arc_weights; try lia; try (repeat constructor; cbn; lia).
    exists q. split; [exact E|]. cbv zeta in K. destruct K as (_ & K); [lra|].
    destruct (K 0%nat 1 2 ltac:(lia) (arc_bound 0 ltac:(lia)) B) as (_ & V). specialize (V [1 / 2] eq_refl half_box).
    eapply Rle_trans; [|eapply Rle_trans; [exact V|apply small_error; lra]]. right. f_equal. f_equal. unfold coord. cbn. field.
  - destruct (C95_sum 53 (round_to 53) 5 2 2 arc arc) as (q & E & _ & _ & _ & K); auto using arc_wf, arc_weights; try lia; try (repeat constructor; cbn; lia).
    exists q. split; [exact E|]. cbv zeta in K. destruct K as (_ & K); [lra|].
    destruct (K 0%nat 1 1 ltac:(lia) (arc_bound 0 ltac:(lia)) (arc_bound 0 ltac:(lia))) as (_ & V). specialize (V [1 / 2] eq_refl half_box).
    eapply Rle_trans; [|eapply Rle_trans; [exact V|apply small_error; lra]]. right. f_equal. f_equal. unfold coord. cbn. field.
Qed.

(** C96: composition of a rational and a polynomial spline in rounded arithmetic. *)
Theorem C96_compose : forall p rnd MAXB d (outer : rspline R (point R d)) (inner : spline (point R (length (rdegrees outer)))),
  (0 < p)%nat -> nearest p rnd -> (MAXB <= 68)%nat -> rwf outer -> wf inner ->
  (forall q k, In q (control_points inner) -> (k < length (rdegrees outer))%nat -> 0 <= coord _ q k <= 1) ->
  Forall (fun q => list_sum (rdegrees outer) * q < MAXB)%nat (degrees inner) ->
  Forall (fun q => q < MAXB)%nat (rdegrees outer) -> positive_weights outer ->
  exists c, Compose_RP_rnd rnd MAXB outer inner = Ok c /\ rwf c /\ rdegrees c = map (Nat.mul (list_sum (rdegrees outer))) (degrees inner) /\
    let g := gamma p (compose_roundings (rdegrees outer) (degrees inner)) in
    (g < 1 -> positive_weights c /\
     forall k B, (k < d)%nat -> rat_bound outer k B ->
       rat_bound c k (quotient_growth g B) /\
       forall xs, length xs = length (degrees inner) -> in_unit_box xs ->
         Rabs (coord d (rvalue c xs) k - coord d (rvalue outer (plist _ (value_at inner xs))) k) <= quotient_error g B).
Proof. exact c96_compose. Qed.
Print Assumptions C96_compose.
Theorem C96_compose_scalar : forall p rnd MAXB (outer : rspline R R) (inner : spline (point R (length (rdegrees outer)))),
  (0 < p)%nat -> nearest p rnd -> (MAXB <= 68)%nat -> rwf outer -> wf inner ->
  (forall q k, In q (control_points inner) -> (k < length (rdegrees outer))%nat -> 0 <= coord _ q k <= 1) ->
  Forall (fun q => list_sum (rdegrees outer) * q < MAXB)%nat (degrees inner) ->
  Forall (fun q => q < MAXB)%nat (rdegrees outer) -> positive_weights outer ->
  exists c, Compose_RP_rnd_s rnd MAXB outer inner = Ok c /\ rwf c /\ rdegrees c = map (Nat.mul (list_sum (rdegrees outer))) (degrees inner) /\
    let g := gamma p (compose_roundings (rdegrees outer) (degrees inner)) in
    (g < 1 -> positive_weights c /\
     forall B, rat_bound_s outer B ->
       rat_bound_s c (quotient_growth g B) /\
       forall xs, length xs = length (degrees inner) -> in_unit_box xs ->
         Rabs (rvalue c xs - rvalue outer (plist _ (value_at inner xs))) <= quotient_error g B).
Proof. exact c96_compose_scalar. Qed.
Print Assumptions C96_compose_scalar.
(** The first half of the quarter circle, by composition. *)
Example C96_case :
  let inner : spline (point R 1) := mkSpline [1%nat] 2 [1%nat] [(0, tt); (1 / 2, tt)] in
  wf inner /\
  (exists q, Compose_RP_rnd (round_to 53) 5 arc inner = Ok q /\ rdegrees q = [2%nat] /\ Rabs (coord 2 (rvalue q [1 / 2]) 0 - 15 / 17) <= 300 / 2 ^ 53) /\
  exists q, Compose_RP_rnd_s (round_to 53) 5 ratio inner = Ok q /\ rdegrees q = [1%nat] /\ Rabs (rvalue q [1 / 2] - 7 / 5) <= 600 / 2 ^ 53.
Proof.
  intros inner. assert (HR : nearest 53 (round_to 53)) by (apply nearest_round_to; lia).
  assert (Hi : wf inner) by (repeat split; discriminate).
  assert (HC : forall q k, In q (control_points inner) -> (k < 1)%nat -> 0 <= coord 1 q k <= 1).
  { intros q k Hq Hk. replace k with 0%nat by lia. destruct Hq as [<-|[<-|[]]]; unfold coord; cbn [plist fst nth]; lra. }
  split; [exact Hi|]. split.
  - destruct (C96_compose 53 (round_to 53) 5 2 arc inner) as (q & E & _ & D & K); auto using arc_wf, arc_weights; try lia; try (repeat constructor; cbn; lia).
    exists q. split; [exact E|]. split; [exact D|]. change (compose_roundings (rdegrees arc) (degrees inner)) with 47%nat in K. cbv zeta in K.
    assert (G : 0 <= gamma 53 47 <= 2 * INR 47 * / 2 ^ 53) by (apply C71_gamma; simpl; lra). simpl INR in G.
    destruct K as (_ & K); [lra|]. destruct (K 0%nat 1 ltac:(lia) (arc_bound 0 ltac:(lia))) as (_ & V). specialize (V [1 / 2] eq_refl half_box).
    eapply Rle_trans; [|eapply Rle_trans; [exact V|apply small_error; lra]]. right. f_equal. f_equal. unfold coord. cbn. field.
  - destruct (C96_compose_scalar 53 (round_to 53) 5 ratio inner) as (q & E & _ & D & K); auto using ratio_wf, ratio_weights; try lia; try (repeat constructor; cbn; lia).
    exists q. split; [exact E|]. split; [exact D|]. cbv zeta in K.
    change (compose_roundings (rdegrees ratio) (degrees inner)) with 32%nat in K.
    assert (G : 0 <= gamma 53 32 <= 2 * INR 32 * / 2 ^ 53) by (apply C71_gamma; simpl; lra). simpl INR in G.
    destruct K as (_ & K); [lra|]. destruct (K 2 ratio_bound) as (_ & V). specialize (V [1 / 2] eq_refl half_box).
    eapply Rle_trans; [|eapply Rle_trans; [exact V|apply small_error; lra]]. right. f_equal. f_equal. cbn. field.
Qed.

(** C97: the pieces of a subdivided rational spline fit together, whatever the arithmetic. *)
Theorem C97_split : forall (T V : Type) (o : SOps T) (ov : VOps T V) (r : rspline T V) x k parts,
  rwf r -> (k < length (rdegrees r))%nat -> R_SplitAtPosition r x k = Ok parts ->
  exists a b, parts = [a; b] /\ rwf a /\ rwf b /\ rdegrees a = rdegrees r /\ rdegrees b = rdegrees r /\
    rational_same_near_face k a r /\ rational_joined k a b /\ rational_same_far_face k b r.
Proof. exact c97_split. Qed.
Print Assumptions C97_split.
Theorem C97_splits : forall (T V : Type) (o : SOps T) (ov : VOps T V) (r : rspline T V) planes k parts,
  rwf r -> (k < length (rdegrees r))%nat -> R_SplitAtPositions r planes k = Ok parts ->
  length parts = S (length planes) /\ Forall (fun q => rwf q /\ rdegrees q = rdegrees r) parts /\
  rational_same_near_face k (nth 0 parts r) r /\ rational_same_far_face k (nth (length planes) parts r) r /\
  forall i, (i < length planes)%nat -> rational_joined k (nth i parts r) (nth (S i) parts r).
Proof. exact c97_splits. Qed.
Print Assumptions C97_splits.
Theorem C97_watertight : forall p rnd d (a b : rspline R (point R d)) k xs, (0 < p)%nat -> nearest p rnd ->
  rwf a -> rwf b -> rdegrees b = rdegrees a -> (k < length (rdegrees a))%nat -> length xs = length (rdegrees a) -> rational_joined k a b ->
  rational_representable p a -> rational_representable p b ->
  R_Evaluate_rnd rnd a (upd_list xs k 1) = R_Evaluate_rnd rnd b (upd_list xs k 0).
Proof. exact c97_watertight. Qed.
Print Assumptions C97_watertight.
Theorem C97_pieces : forall p rnd d (r : rspline R (point R d)) planes k parts, (0 < p)%nat -> nearest p rnd ->
  rwf r -> (k < length (rdegrees r))%nat -> R_SplitAtPositions_rnd rnd r planes k = Ok parts -> rational_representable p r ->
  length parts = S (length planes) /\
  forall i xs, (i < length planes)%nat -> length xs = length (rdegrees r) ->
    R_Evaluate_rnd rnd (nth i parts r) (upd_list xs k 1) = R_Evaluate_rnd rnd (nth (S i) parts r) (upd_list xs k 0).
Proof. exact c97_pieces. Qed.
Print Assumptions C97_pieces.
(** The quarter circle cut at 1/2 in double precision has no gap. *)
Example C97_case :
  rational_representable 53 arc /\
  exists a b, R_SplitAtPositions_rnd (round_to 53) arc [1 / 2] 0 = Ok [a; b] /\ rational_joined 0 a b /\
    R_Evaluate_rnd (round_to 53) a [1] = R_Evaluate_rnd (round_to 53) b [0].
Proof.
  assert (HR : nearest 53 (round_to 53)) by (apply nearest_round_to; lia).
  assert (HC : rational_representable 53 arc).
  { assert (R0 : representable 53 0) by (exists 0%Z, 0%Z; split; [vm_compute; reflexivity|simpl; lra]).
    assert (R1 : representable 53 1) by (exists 1%Z, 0%Z; split; [vm_compute; reflexivity|simpl; lra]).
    assert (R2 : representable 53 2) by (exists 2%Z, 0%Z; split; [vm_compute; reflexivity|simpl; lra]).
    split.
    - intros q c Hq Hc. destruct c as [|[|c]]; [| |lia]; destruct Hq as [<-|[<-|[<-|[]]]]; unfold coord; cbn [plist fst snd nth]; assumption.
    - intros w [<-|[<-|[<-|[]]]]; assumption. }
  split; [exact HC|].
  destruct (C92_split 53 (round_to 53) 2 arc (1 / 2) 0) as (a & b & E & _); auto using arc_wf, arc_weights; try lia; try lra; try (cbn; lia).
  assert (ES : R_SplitAtPositions_rnd (round_to 53) arc [1 / 2] 0 = Ok [a; b]).
  { unfold R_SplitAtPositions_rnd, R_SplitAtPositions. unfold R_SplitAtPosition_rnd in E.
    change (is_sorted (o := SOps_rnd (round_to 53)) [1 / 2]) with true. cbn [negb length Nat.eqb get nth_error bind Nat.sub for_up].
    rewrite E. reflexivity. }
  exists a, b. split; [exact ES|]. split.
  - destruct (C97_split R (point R 2) (SOps_rnd (round_to 53)) (VOps_point R 2 (o := SOps_rnd (round_to 53))) arc (1 / 2) 0 [a; b]) as (a' & b' & E' & _ & _ & _ & _ & _ & J & _); auto using arc_wf; try (cbn; lia).
    injection E' as <- <-. exact J.
  - destruct (C97_pieces 53 (round_to 53) 2 arc [1 / 2] 0 [a; b]) as (_ & H); auto using arc_wf; try lia; try (cbn; lia).
    exact (H 0%nat [0] ltac:(cbn; lia) eq_refl).
Qed.
