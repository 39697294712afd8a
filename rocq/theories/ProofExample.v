(** Lemmas for the example program: circular arcs as rational curves, bilinear rectangles. *)
From Coq Require Import Arith Lia List ZArith NArith Bool Reals Lra.
From Verif Require Import Prelude Scalar Spec Coord ModelBasis ModelSpline ModelRational SpecSpline SpecRational
  ProofIndex ProofEval ProofRational ModelExample SpecExample.
Import ListNotations.
Local Open Scope R_scope.

(** ** Circular arcs *)
(** [W], [X] and [Y] are the weight function and the coordinates in the frame of the middle of
    the arc; the arc has the angle [2 h]. *)
Definition arcW h u := (1 - u) * (1 - u) + 2 * (u * (1 - u)) * cos h + u * u.
Definition arcC m h u := cos (m - h) * ((1 - u) * (1 - u)) + 2 * (u * (1 - u)) * cos m + cos (m + h) * (u * u).
Definition arcS m h u := sin (m - h) * ((1 - u) * (1 - u)) + 2 * (u * (1 - u)) * sin m + sin (m + h) * (u * u).

Lemma sin2 x : sin x * sin x = 1 - cos x * cos x.
Proof. pose proof (sin2_cos2 x) as H. unfold Rsqr in H. lra. Qed.

Lemma arcW_pos h u : 0 < cos h -> unit_real u -> 0 < arcW h u.
Proof.
  intros Hc (H0 & H1). unfold arcW. assert (0 <= u * (1 - u)) by nra.
  assert (0 <= 2 * (u * (1 - u)) * cos h) by nra. nra.
Qed.

Lemma arc_frame m h u : let X := cos h * ((1 - u) * (1 - u) + u * u) + 2 * (u * (1 - u)) in
  let Y := sin h * (u * u - (1 - u) * (1 - u)) in
  arcC m h u = X * cos m - Y * sin m /\ arcS m h u = X * sin m + Y * cos m.
Proof. cbv zeta. unfold arcC, arcS. rewrite cos_minus, cos_plus, sin_minus, sin_plus. split; ring. Qed.

Lemma arc_circle h u : let X := cos h * ((1 - u) * (1 - u) + u * u) + 2 * (u * (1 - u)) in
  let Y := sin h * (u * u - (1 - u) * (1 - u)) in
  X * X + Y * Y = arcW h u * arcW h u.
Proof.
  cbv zeta. unfold arcW.
  replace (sin h * (u * u - (1 - u) * (1 - u)) * (sin h * (u * u - (1 - u) * (1 - u))))
    with (sin h * sin h * ((u * u - (1 - u) * (1 - u)) * (u * u - (1 - u) * (1 - u)))) by ring.
  rewrite sin2. ring.
Qed.

Lemma polar_frame X Y W : 0 < X -> 0 < W -> X * X + Y * Y = W * W ->
  X = W * cos (atan (Y / X)) /\ Y = W * sin (atan (Y / X)).
Proof.
  intros HX HW E.
  assert (Q : sqrt (1 + (Y / X) ^ 2) = W / X).
  { replace (1 + (Y / X) ^ 2) with (W / X * (W / X)).
    - rewrite sqrt_square; auto. apply Rlt_le, Rdiv_lt_0_compat; auto.
    - replace (W / X * (W / X)) with ((W * W) / (X * X)) by (field; lra). rewrite <- E. field. lra. }
  rewrite cos_atan, sin_atan. unfold Rsqr. replace (Y / X * (Y / X)) with ((Y / X) ^ 2) by ring.
  rewrite Q. split; field; lra.
Qed.

Lemma arc_into_pos m h u : 0 <= h < PI / 2 -> unit_real u ->
  exists l, unit_real l /\
    arcC m h u = arcW h u * cos (m + (2 * l - 1) * h) /\ arcS m h u = arcW h u * sin (m + (2 * l - 1) * h).
Proof.
  intros Hh Hu. pose proof PI_RGT_0 as HPI.
  assert (Hc : 0 < cos h) by (apply cos_gt_0; lra).
  assert (Hs : 0 <= sin h) by (apply sin_ge_0; lra).
  pose proof (arcW_pos h u Hc Hu) as HW. pose proof (arc_frame m h u) as F. pose proof (arc_circle h u) as E.
  cbv zeta in F, E.
  set (X := cos h * ((1 - u) * (1 - u) + u * u) + 2 * (u * (1 - u))) in *.
  set (Y := sin h * (u * u - (1 - u) * (1 - u))) in *.
  assert (HX : 0 < X).
  { unfold X. destruct Hu. assert (0 <= u * (1 - u)) by nra.
    assert (0 < (1 - u) * (1 - u) + u * u) by nra. nra. }
  destruct (polar_frame X Y (arcW h u) HX HW E) as (EX & EY). set (phi := atan (Y / X)) in *.
  assert (HB : - h <= phi <= h).
  { assert (Ht : h = atan (tan h)) by (symmetry; apply atan_tan; lra).
    assert (HT : - tan h <= Y / X <= tan h).
    { unfold tan. destruct Hu. unfold Rdiv at 2.
      assert (B : forall z, 0 <= z <= 1 -> - ((1-z)*(1-z) + z*z) <= z*z - (1-z)*(1-z) <= (1-z)*(1-z) + z*z) by (intros; nra).
      specialize (B u (conj H H0)).
      assert (K1 : sin h * X - cos h * Y >= 0).
      { unfold X, Y. assert (0 <= u * (1 - u)) by nra.
        replace (sin h * (cos h * ((1 - u) * (1 - u) + u * u) + 2 * (u * (1 - u))) - cos h * (sin h * (u * u - (1 - u) * (1 - u))))
          with (sin h * (cos h * (((1 - u) * (1 - u) + u * u) - (u * u - (1 - u) * (1 - u))) + 2 * (u * (1 - u)))) by ring.
        apply Rle_ge, Rmult_le_pos; auto. apply Rplus_le_le_0_compat; [apply Rmult_le_pos; lra|lra]. }
      assert (K2 : sin h * X + cos h * Y >= 0).
      { unfold X, Y. assert (0 <= u * (1 - u)) by nra.
        replace (sin h * (cos h * ((1 - u) * (1 - u) + u * u) + 2 * (u * (1 - u))) + cos h * (sin h * (u * u - (1 - u) * (1 - u))))
          with (sin h * (cos h * (((1 - u) * (1 - u) + u * u) + (u * u - (1 - u) * (1 - u))) + 2 * (u * (1 - u)))) by ring.
        apply Rle_ge, Rmult_le_pos; auto. apply Rplus_le_le_0_compat; [apply Rmult_le_pos; lra|lra]. }
      fold (sin h / cos h). split.
      - assert (P : Y / X - - (sin h / cos h) = (sin h * X + cos h * Y) * / (X * cos h)) by (field; lra).
        assert (0 < / (X * cos h)) by (apply Rinv_0_lt_compat; nra).
        assert (0 <= (sin h * X + cos h * Y) * / (X * cos h)) by (apply Rmult_le_pos; lra). lra.
      - assert (P : sin h / cos h - Y / X = (sin h * X - cos h * Y) * / (X * cos h)) by (field; lra).
        assert (0 < / (X * cos h)) by (apply Rinv_0_lt_compat; nra).
        assert (0 <= (sin h * X - cos h * Y) * / (X * cos h)) by (apply Rmult_le_pos; lra). lra. }
    assert (M : forall a b, a <= b -> atan a <= atan b).
    { intros a b [L| ->]; [left; apply atan_increasing; auto|right; auto]. }
    unfold phi. split.
    - rewrite Ht, <- atan_opp. apply M. lra.
    - apply Rle_trans with (atan (tan h)); [apply M; lra|right; symmetry; exact Ht]. }
  exists (if Req_EM_T h 0 then / 2 else (phi / h + 1) / 2).
  assert (HL : unit_real (if Req_EM_T h 0 then / 2 else (phi / h + 1) / 2) /\
               (2 * (if Req_EM_T h 0 then / 2 else (phi / h + 1) / 2) - 1) * h = phi).
  { destruct (Req_EM_T h 0) as [->|Hn].
    - split; [split; lra|]. lra.
    - split; [|field; auto]. assert (Hp : 0 < h) by lra.
      assert (- 1 <= phi / h <= 1).
      { split; apply (Rmult_le_reg_r h); auto; unfold Rdiv; rewrite Rmult_assoc, Rinv_l by auto; lra. }
      split; lra. }
  destruct HL as (HL & EL). split; [exact HL|]. rewrite EL, cos_plus, sin_plus.
  destruct F as (-> & ->). rewrite EX, EY. split; ring.
Qed.

(** Mirror image. *)
Lemma arc_mirror m h u : arcC m h u = arcC m (- h) (1 - u) /\ arcS m h u = arcS m (- h) (1 - u) /\
  arcW h u = arcW (- h) (1 - u).
Proof.
  unfold arcC, arcS, arcW. rewrite cos_neg. replace (m - - h) with (m + h) by ring. replace (m + - h) with (m - h) by ring.
  repeat split; ring.
Qed.

Lemma arc_into m h u : - (PI / 2) < h < PI / 2 -> unit_real u ->
  exists l, unit_real l /\
    arcC m h u = arcW h u * cos (m + (2 * l - 1) * h) /\ arcS m h u = arcW h u * sin (m + (2 * l - 1) * h).
Proof.
  intros Hh Hu. destruct (Rle_dec 0 h) as [H0|H0]; [apply arc_into_pos; auto; lra|].
  destruct (arc_into_pos m (- h) (1 - u)) as (l & Hl & E1 & E2); [lra|destruct Hu; split; lra|].
  destruct (arc_mirror m h u) as (-> & -> & ->). exists (1 - l). split; [destruct Hl; split; lra|].
  replace (m + (2 * (1 - l) - 1) * h) with (m + (2 * l - 1) * - h) by ring. auto.
Qed.

Lemma arc_onto_pos m h l : 0 < h < PI / 2 -> unit_real l ->
  exists u, unit_real u /\
    arcC m h u = arcW h u * cos (m + (2 * l - 1) * h) /\ arcS m h u = arcW h u * sin (m + (2 * l - 1) * h).
Proof.
  intros Hh (L0 & L1). pose proof PI_RGT_0 as HPI.
  set (al := (1 - l) * h). set (be := l * h).
  assert (Ha : 0 <= al <= h) by (unfold al; nra). assert (Hb : 0 <= be <= h) by (unfold be; nra).
  assert (Hab : al + be = h) by (unfold al, be; ring).
  pose proof (sin_ge_0 al ltac:(lra) ltac:(lra)) as Sa. pose proof (sin_ge_0 be ltac:(lra) ltac:(lra)) as Sb.
  assert (Hs : 0 < sin al + sin be).
  { destruct (Rle_lt_or_eq_dec 0 al) as [P|P]; [lra| |].
    - pose proof (sin_gt_0 al ltac:(lra) ltac:(lra)). lra.
    - pose proof (sin_gt_0 be ltac:(lra) ltac:(lra)). lra. }
  set (s := sin al + sin be) in *. exists (sin be / s).
  assert (E1 : 1 - sin be / s = sin al / s) by (unfold s; field; fold s; lra).
  split.
  { assert (0 < / s) by (apply Rinv_0_lt_compat; auto).
    assert (0 <= sin be / s) by (apply Rmult_le_pos; lra).
    assert (0 <= sin al / s) by (apply Rmult_le_pos; lra). split; lra. }
  replace ((2 * l - 1) * h) with (be - al) by (unfold al, be; ring).
  unfold arcC, arcS, arcW. rewrite E1.
  assert (Q : forall a b c p q r : R, p * (a / s * (a / s)) + 2 * (b / s * (a / s)) * q + r * (b / s * (b / s)) =
    (p * (a * a) + 2 * (b * a) * q + r * (b * b)) / (s * s)) by (intros; field; lra).
  assert (Q1 : forall a b q : R, a / s * (a / s) + 2 * (b / s * (a / s)) * q + b / s * (b / s) =
    (a * a + 2 * (b * a) * q + b * b) / (s * s)) by (intros; field; lra).
  rewrite !Q, Q1 by exact 0.
  assert (Ech : cos h = cos al * cos be - sin al * sin be) by (rewrite <- Hab; apply cos_plus).
  assert (Esh : sin h = sin al * cos be + cos al * sin be) by (rewrite <- Hab; apply sin_plus).
  pose proof (sin2 al) as S1. pose proof (sin2 be) as S2.
  assert (EX : cos h * (sin al * sin al + sin be * sin be) + 2 * (sin be * sin al) =
    (sin al * sin al + 2 * (sin be * sin al) * cos h + sin be * sin be) * (cos be * cos al + sin be * sin al)).
  { rewrite Ech. set (a := sin al) in *. set (b := sin be) in *. set (ca := cos al) in *. set (cb := cos be) in *.
    assert (Eq : (ca * ca) * (cb * cb) = (1 - a * a) * (1 - b * b)) by (rewrite S1, S2; ring).
    transitivity ((ca * cb - a * b) * (a * a + b * b) + 2 * (a * b)); [ring|].
    transitivity ((a * a + b * b) * (ca * cb + a * b) + 2 * (a * b) * (ca * ca * (cb * cb) - a * a * (b * b))); [|ring].
    rewrite Eq. ring. }
  assert (EY : sin h * (sin be * sin be - sin al * sin al) =
    (sin al * sin al + 2 * (sin be * sin al) * cos h + sin be * sin be) * (sin be * cos al - cos be * sin al)).
  { assert (EW : sin al * sin al + 2 * (sin be * sin al) * cos h + sin be * sin be = sin h * sin h).
    { rewrite Esh, Ech. set (a := sin al) in *. set (b := sin be) in *. set (ca := cos al) in *. set (cb := cos be) in *.
      transitivity (a * a + b * b + 2 * (a * b) * (ca * cb) - 2 * (a * a) * (b * b)); [ring|].
      transitivity (a * a * (cb * cb) + b * b * (ca * ca) + 2 * (a * b) * (ca * cb)); [|ring].
      replace (cb * cb) with (1 - b * b) by lra. replace (ca * ca) with (1 - a * a) by lra. ring. }
    rewrite EW, Rmult_assoc. f_equal. rewrite Esh.
    set (a := sin al) in *. set (b := sin be) in *. set (ca := cos al) in *. set (cb := cos be) in *.
    transitivity (b * b * (ca * ca) - a * a * (cb * cb)); [|ring].
    replace (cb * cb) with (1 - b * b) by lra. replace (ca * ca) with (1 - a * a) by lra. ring. }
  rewrite (cos_plus m (be - al)), (sin_plus m (be - al)), (cos_minus be al), (sin_minus be al), (cos_minus m h), (cos_plus m h), (sin_minus m h), (sin_plus m h).
  split.
  - transitivity (((cos h * (sin al * sin al + sin be * sin be) + 2 * (sin be * sin al)) * cos m -
      sin h * (sin be * sin be - sin al * sin al) * sin m) / (s * s)); [field; lra|].
    rewrite EX, EY. field. lra.
  - transitivity (((cos h * (sin al * sin al + sin be * sin be) + 2 * (sin be * sin al)) * sin m +
      sin h * (sin be * sin be - sin al * sin al) * cos m) / (s * s)); [field; lra|].
    rewrite EX, EY. field. lra.
Qed.

Lemma arc_onto m h l : - (PI / 2) < h < PI / 2 -> unit_real l ->
  exists u, unit_real u /\
    arcC m h u = arcW h u * cos (m + (2 * l - 1) * h) /\ arcS m h u = arcW h u * sin (m + (2 * l - 1) * h).
Proof.
  intros Hh Hl. destruct (Rtotal_order h 0) as [H0|[->|H0]].
  - destruct (arc_onto_pos m (- h) (1 - l)) as (u & Hu & E1 & E2); [lra|destruct Hl; split; lra|].
    exists (1 - u). split; [destruct Hu; split; lra|].
    destruct (arc_mirror m h (1 - u)) as (-> & -> & ->). replace (1 - (1 - u)) with u by ring.
    replace (m + (2 * l - 1) * h) with (m + (2 * (1 - l) - 1) * - h) by ring. auto.
  - exists 0. split; [split; lra|]. unfold arcC, arcS, arcW.
    replace (m + (2 * l - 1) * 0) with m by ring. rewrite Rminus_0_r, Rplus_0_r, cos_0. split; ring.
  - apply arc_onto_pos; auto. lra.
Qed.
(** ** The splines of the example *)
Definition square_spline (x0 x1 y0 y1 : R) : spline (point R 2) :=
  mkSpline [1; 1]%nat 4 [1; 2]%nat [Point2D x0 y0; Point2D x1 y0; Point2D x0 y1; Point2D x1 y1].
Lemma square_rectangle x0 x1 y0 y1 : rectangle x0 x1 y0 y1 (square_spline x0 x1 y0 y1).
Proof.
  split; [repeat split; auto; discriminate|]. split; [reflexivity|]. intros u v.
  unfold Evaluate, square_spline. cbn -[Rplus Rmult Rminus]. unfold Point2D. do 2 f_equal; [ring|f_equal; ring].
Qed.
Lemma SimpleCrossTile_ok t : let lo := / 2 - / 2 * t in let hi := / 2 + / 2 * t in
  SimpleCrossTile t = Ok [square_spline lo hi lo hi; square_spline 0 lo lo hi; square_spline hi 1 lo hi;
    square_spline lo hi 0 lo; square_spline lo hi hi 1].
Proof. reflexivity. Qed.

Definition segment (innerR outerR delta f w : R) (i : R) : rspline R (point R 2) :=
  let A := delta * i in let M := delta * (i + / 2) in let E := delta * (i + 1) in
  mkR (mkSpline [2; 1]%nat 6 [1; 3]%nat
    [Point2D (cos A * outerR * 1) (sin A * outerR * 1);
     Point2D (cos M * f * outerR * w) (sin M * f * outerR * w);
     Point2D (cos E * outerR * 1) (sin E * outerR * 1);
     Point2D (cos A * innerR * 1) (sin A * innerR * 1);
     Point2D (cos M * f * innerR * w) (sin M * f * innerR * w);
     Point2D (cos E * innerR * 1) (sin E * innerR * 1)])
    (mkSpline [2; 1]%nat 6 [1; 3]%nat [1; w; 1; 1; w; 1]).

Lemma CircleGroup_ok innerR outerR n arc : (0 < n)%nat -> cos (arc / INR n / 2) <> 0 ->
  CircleGroup innerR outerR n arc =
  Ok (map (fun k => segment innerR outerR (arc / INR n) (/ cos (arc / INR n / 2)) (cos (arc / INR n / 2)) (INR k)) (seq 0 n)).
Proof.
  intros Hn Hc. unfold CircleGroup. destruct (Nat.eqb_spec n 0) as [->|_]; [lia|].
  assert (HS : forall k, (sofnat k : R) = INR k).
  { intros k. unfold sofnat. cbn. rewrite nat_N_Z. symmetry. apply INR_IZR_INZ. }
  rewrite divS_ok by (rewrite HS; cbn; apply not_0_INR; lia). rewrite bind_Ok.
  replace (@sdiv R SOps_R arc (sofnat n)) with (arc / INR n) by (rewrite HS; reflexivity).
  set (delta := arc / INR n) in *.
  replace (sin (PI / 2 - delta / 2)) with (cos (delta / 2)) by (rewrite <- sin_shift; reflexivity).
  rewrite divS_ok by exact Hc. rewrite bind_Ok.
  replace (@sdiv R SOps_R 1 (cos (delta / 2))) with (/ cos (delta / 2)) by (cbn; unfold Rdiv; ring).
  set (w := cos (delta / 2)) in *. set (f := / w).
  set (dflt := mkR (T := R) (mkSpline [0; 0]%nat 0%nat [0; 0]%nat []) (mkSpline [0; 0]%nat 0%nat [0; 0]%nat [])).
  edestruct (for_up_inv (fun k (l : list (rspline R (point R 2))) => length l = n /\
    forall j, (j < k)%nat -> nth j l dflt = segment innerR outerR delta f w (INR j))) as (l & E & HL & HN).
  3:{ rewrite E. f_equal. apply (list_ext dflt).
      - rewrite map_length, seq_length. exact HL.
      - intros j Hj. rewrite HN by lia. rewrite nth_map_seq by lia. reflexivity. }
  - rewrite repeat_length. split; auto. intros; lia.
  - cbv beta zeta. intros k l Hk (HL & HN). rewrite HS.
    match goal with |- exists _, (do r <- ?X; _) = _ /\ _ =>
      assert (EX : X = Ok (segment innerR outerR delta f w (INR k))) end.
    { cbn -[Rplus Rmult Rminus]. unfold segment. reflexivity. }
    rewrite EX, bind_Ok, set_ok by lia. eexists. split; [reflexivity|]. rewrite length_upd. split; auto.
    intros j Hj. rewrite nth_upd by lia. destruct (Nat.eqb_spec j k) as [->|]; auto. apply HN. lia.
Qed.

Lemma segment_rwf innerR outerR delta f w i : rwf (segment innerR outerR delta f w i).
Proof. repeat split; cbn; auto; discriminate. Qed.

Lemma segment_parts innerR outerR delta w i u v : w = cos (delta / 2) -> w <> 0 ->
  let r := segment innerR outerR delta (/ w) w i in let h := delta / 2 in let m := delta * (i + / 2) in
  let rho := (1 - v) * outerR + v * innerR in
  Evaluate (weight_function r) [u; v] = Ok (arcW h u) /\
  Evaluate (weighted_spline r) [u; v] = Ok (Point2D (rho * arcC m h u) (rho * arcS m h u)).
Proof.
  intros Hw H0 r h m rho.
  assert (EA : delta * i = m - h) by (unfold m, h; field).
  assert (EE : delta * (i + 1) = m + h) by (unfold m, h; field).
  assert (HF : / w * w = 1) by (field; auto).
  split.
  - unfold r, segment, Evaluate, arcW, h. rewrite <- Hw. cbn -[Rplus Rmult Rminus]. f_equal. ring.
  - unfold r, segment, arcC, arcS. cbv zeta. rewrite EA, EE. fold m. unfold Evaluate.
    cbn -[Rplus Rmult Rminus].
    set (c0 := cos (m - h)). set (c1 := cos m). set (c2 := cos (m + h)).
    set (d0 := sin (m - h)). set (d1 := sin m). set (d2 := sin (m + h)). set (f := / w) in *. clearbody f c0 c1 c2 d0 d1 d2.
    unfold Point2D. apply f_equal.
    apply f_equal2; [|apply f_equal2; [|reflexivity]];
    match goal with |- _ = rho * (?x * _ + _ * ?y + ?z * _) =>
      unfold rho; transitivity (((1-v)*outerR + v*innerR) * (x * ((1 - u) * (1 - u)) + 2 * (u * (1 - u)) * y * (f * w) + z * (u * u)));
      [ring|rewrite HF; ring] end.
Qed.

Lemma segment_value innerR outerR delta w i u v m' : w = cos (delta / 2) -> w <> 0 -> 
  let r := segment innerR outerR delta (/ w) w i in let h := delta / 2 in let m := delta * (i + / 2) in
  arcW h u <> 0 ->
  arcC m h u = arcW h u * cos m' -> arcS m h u = arcW h u * sin m' ->
  R_Evaluate r [u; v] = Ok (polar ((1 - v) * outerR + v * innerR) m').
Proof.
  intros Hw H0 r h m HW EC ES. destruct (segment_parts innerR outerR delta w i u v Hw H0) as (E1 & E2).
  fold r h m in E1, E2. unfold R_Evaluate. rewrite E1, E2, !bind_Ok.
  rewrite vdiv_ok by exact HW. f_equal. rewrite EC, ES. cbn -[Rplus Rmult Rminus]. unfold polar, Point2D.
  apply f_equal2; [|apply f_equal2; [|reflexivity]]; field; auto.
Qed.

Lemma half_angle delta : - PI < delta < PI -> 0 < cos (delta / 2).
Proof. intros H. apply cos_gt_0; lra. Qed.

Lemma segment_ring innerR outerR delta k : - PI < delta < PI ->
  ring_segment innerR outerR delta k (segment innerR outerR delta (/ cos (delta / 2)) (cos (delta / 2)) (INR k)).
Proof.
  intros Hd. pose proof (half_angle delta Hd) as Hc. split; [apply segment_rwf|]. split; [reflexivity|].
  assert (EM : forall l, delta * (INR k + / 2) + (2 * l - 1) * (delta / 2) = delta * (INR k + l)) by (intros; field).
  split.
  - intros u v Hu. destruct (arc_into (delta * (INR k + / 2)) (delta / 2) u) as (l & Hl & E1 & E2); [lra|auto|].
    exists l. split; [auto|]. rewrite EM in E1, E2.
    apply segment_value; auto; [lra|]. pose proof (arcW_pos _ _ Hc Hu). lra.
  - intros l v Hl. destruct (arc_onto (delta * (INR k + / 2)) (delta / 2) l) as (u & Hu & E1 & E2); [lra|auto|].
    exists u. split; [auto|]. rewrite EM in E1, E2.
    apply segment_value; auto; [lra|]. pose proof (arcW_pos _ _ Hc Hu). lra.
Qed.

(** Values at the two ends of the first parameter. *)
Lemma segment_ends innerR outerR delta w i v : w = cos (delta / 2) -> w <> 0 ->
  let r := segment innerR outerR delta (/ w) w i in let rho := (1 - v) * outerR + v * innerR in
  R_Evaluate r [0; v] = Ok (polar rho (delta * i)) /\ R_Evaluate r [1; v] = Ok (polar rho (delta * (i + 1))).
Proof.
  intros Hw H0. cbv zeta.
  split; apply segment_value; auto; unfold arcW, arcC, arcS; try lra.
  - replace (delta * (i + / 2) - delta / 2) with (delta * i) by field. ring.
  - replace (delta * (i + / 2) - delta / 2) with (delta * i) by field. ring.
  - replace (delta * (i + / 2) + delta / 2) with (delta * (i + 1)) by field. ring.
  - replace (delta * (i + / 2) + delta / 2) with (delta * (i + 1)) by field. ring.
Qed.
