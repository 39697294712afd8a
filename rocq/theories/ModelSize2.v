(** Sizes and indices in 64 bits, continued: evaluation, subdivision, elevation, sums, derivatives,
    powers and composition (src/bezier_spline.inc).  Same conventions as ModelSize.v: every sum, difference
    and product of sizes is reduced modulo 2^64, division and remainder by zero are undefined, and resize()
    to more than [limit] elements throws.  A loop [i <= n] runs n + 1 times (for n = 2^64 - 1 it would not end;
    no spline with so large a degree is well-formed). *)
From Coq Require Import Arith Lia List ZArith NArith Bool.
From Verif Require Import Prelude Scalar ModelBasis ModelPoint ModelSpline ModelSize.
Import ListNotations.

(** Sum of an [unsigned int] and a size, used as an index. *)
Definition z64 (z : Z) : nat := Z.to_nat (z mod 2 ^ 64).

Definition div64 (a b : nat) : res nat := if b =? 0 then UB else Ok (a / b).
Definition mod64 (a b : nat) : res nat := if b =? 0 then UB else Ok (a mod b).

Section Generic.
Context (limit : nat) {T V : Type} {o : SOps T} {ov : VOps T V}.

(** src/bezier_spline.inc:328-370  Evaluate *)
Definition Evaluate_64 (s : spline V) (par_coords : list T) : res V :=
  do '(cps, _) <- for_up 0 (length (degrees s)) (fun par_dim '(cps, ctps_to_consider) =>
    do factor <- get par_coords par_dim;
    let inv_factor := ssub s1 factor in
    do p <- get (degrees s) par_dim;
    do off <- get (index_offsets s) par_dim;
    do ctps_to_consider <- div64 ctps_to_consider (w64 (p + 1));
    do cps <- for_up 0 ctps_to_consider (fun starting_point_id cps =>
      let offset := w64 (w64 (off * w64 (p + 1)) * starting_point_id) in
      let step_width := off in
      for_up 0 (p + 1) (fun i cps =>
        for_up 0 (p - i) (fun j cps =>
          do a <- get cps (w64 (w64 (j * step_width) + offset));
          do b <- get cps (w64 (w64 (w64 (j + 1) * step_width) + offset));
          set cps (w64 (w64 (j * step_width) + offset))
            (vadd (vscale inv_factor a) (vscale factor b))) cps) cps) cps;
    Ok (cps, ctps_to_consider)) (control_points s, number_of_control_points s);
  get cps 0.

(** src/bezier_spline.inc:1323-1416  SplitAtPosition(plane, dimension) *)
Definition SplitAtPosition_64 (s : spline V) (plane : T) (dim : nat) : res (list (spline V)) :=
  if negb (sltb s0 plane && sltb plane s1) then Throw else
  do p <- get (degrees s) dim;
  do off <- get (index_offsets s) dim;
  do ctps_per_layer <- div64 (number_of_control_points s) (w64 (p + 1));
  let factor := plane in
  let inv_factor := ssub s1 plane in
  let group_offset := w64 (off * w64 (p + 1)) in
  do '(c1, c2) <- for_up 0 ctps_per_layer (fun start_point_id st =>
    do group_id <- div64 start_point_id off;
    do id_in_group <- mod64 start_point_id off;
    let start := w64 (w64 (group_id * group_offset) + id_in_group) in
    for_up 1 p (fun i '(c1, c2) =>
      do c1 <- for_down (p + 1 - i) (fun k c1 =>
        let j := k + i in
        do a <- get c1 (w64 (start + w64 ((j - 1) * off)));
        do b <- get c1 (w64 (start + w64 (j * off)));
        set c1 (w64 (start + w64 (j * off))) (vadd (vscale inv_factor a) (vscale factor b))) c1;
      do x <- get c1 (w64 (start + w64 (p * off)));
      do c2 <- set c2 (w64 (start + w64 ((p - i) * off))) x;
      Ok (c1, c2)) st) (control_points s, control_points s);
  Ok [with_cps s c1; with_cps s c2].

(** src/bezier_spline.inc:1418-1458  SplitAtPosition(planes, dimension) *)
Definition SplitAtPositions_64 (s : spline V) (planes : list T) (dim : nat)
  : res (list (spline V)) :=
  if negb (is_sorted planes) then Throw else
  if length planes =? 0 then Ok [s] else
  do p0 <- get planes 0;
  do split <- SplitAtPosition_64 s p0 dim;
  do x <- get split 0;
  do '(out, split) <- for_up 1 (length planes - 1) (fun i '(out, split) =>
    do pi <- get planes i;
    do pm <- get planes (i - 1);
    do rel <- divS (ssub pi pm) (ssub s1 pm);
    do rest <- get split 1;
    do split <- SplitAtPosition_64 rest rel dim;
    do x <- get split 0;
    Ok (out ++ [x], split)) ([x], split);
  do x <- get split 1;
  Ok (out ++ [x]).

(** src/bezier_spline.inc:149-227  OrderElevateAlongParametricDimension *)
Definition OrderElevate_64 (s : spline V) (par_dim : nat) : res (spline V) :=
  do p <- get (degrees s) par_dim;
  do off <- get (index_offsets s) par_dim;
  do layers <- div64 (number_of_control_points s) (w64 (p + 1));
  let n_starting_points := u32 (Z.of_nat layers) in
  let starting_point_offset := u32 (Z.of_nat (w64 (off * w64 (p + 1)))) in
  let starting_points_per_group := i32 (Z.of_nat off) in
  do _ <- (if (starting_points_per_group =? 0)%Z then UB else Ok tt);
  let n_groups := i32 (n_starting_points / u32 starting_points_per_group) in
  let n' := w64 (layers * w64 (p + 2)) in
  if limit <? n' then Throw else
  let cps := resize v0 (control_points s) n' in
  do degs' <- set (degrees s) par_dim (w64 (p + 1));
  let global_index := u32 (Z.of_nat n' - 1) in
  do inverse_factor <- divS s1 (sofnat (w64 (p + 1)));
  let variable_offset_factor := w64 (off * p) in
  do '(cps, _) <- for_down (Z.to_nat n_groups) (fun group_index st =>
    let first_index_in_group := u32 (Z.of_nat group_index * starting_point_offset) in
    do st <- for_down (Z.to_nat starting_points_per_group) (fun index_in_group '(cps, gi) =>
      do x <- get cps (z64 (u32 (first_index_in_group + Z.of_nat index_in_group)
                            + Z.of_nat variable_offset_factor));
      do cps <- set cps (Z.to_nat gi) x;
      Ok (cps, u32 (gi - 1))) st;
    do st <- for_down p (fun k st =>
      let i := k + 1 in
      for_down (Z.to_nat starting_points_per_group) (fun index_in_group '(cps, gi) =>
        let factor := smul (sofnat i) inverse_factor in
        do x <- get cps (z64 (u32 (first_index_in_group + Z.of_nat index_in_group)
                              + Z.of_nat (w64 (off * i))));
        do y <- get cps (z64 (u32 (first_index_in_group + Z.of_nat index_in_group)
                              + Z.of_nat (w64 (off * (i - 1)))));
        do cps <- set cps (Z.to_nat gi)
                    (vadd (vscale (ssub s1 factor) x) (vscale factor y));
        Ok (cps, u32 (gi - 1))) st) st;
    for_down (Z.to_nat starting_points_per_group) (fun index_in_group '(cps, gi) =>
      do x <- get cps (Z.to_nat (u32 (first_index_in_group + Z.of_nat index_in_group)));
      do cps <- set cps (Z.to_nat gi) x;
      Ok (cps, u32 (gi - 1))) st) (cps, global_index);
  do offs' <- UpdateIndexOffsets_64 degs';
  Ok (mkSpline degs' n' offs' cps).

(** The loops of the sums, and the sums: as in ModelSpline.v with the functions above. *)
Definition elevate_to_64 (fuel : nat) (target par_dim : nat) (x : spline V) : res (spline V) :=
  while_ fuel (fun y => nth par_dim (degrees y) 0 <? target)
    (fun y => OrderElevate_64 y par_dim) x.
Definition elevate_all_64 (fuel : nat) (targets : list nat) (x : spline V) : res (spline V) :=
  for_up 0 (length (degrees x)) (fun par_dim x =>
    do t <- get targets par_dim;
    elevate_to_64 fuel t par_dim x) x.

(** src/bezier_spline.inc:575-615  operator+(spline) *)
Fixpoint spline_add_rec_64 (depth fuel : nat) (s rhs : spline V) : res (spline V) :=
  match depth with
  | O => Diverge
  | S depth' =>
    do return_spline <- Spline_deg_points_64 (degrees s) (control_points s);
    do rhs_needs_copy <- for_up 0 (length (degrees s)) (fun par_dim b =>
      do p <- get (degrees s) par_dim;
      do q <- get (degrees rhs) par_dim;
      Ok (b || (q <? p))) false;
    do return_spline <- elevate_all_64 fuel (degrees rhs) return_spline;
    if negb rhs_needs_copy then
      combine_assign vadd (number_of_control_points return_spline) return_spline rhs
    else spline_add_rec_64 depth' fuel rhs return_spline
  end.
Definition spline_add_64 (fuel : nat) (s rhs : spline V) : res (spline V) :=
  spline_add_rec_64 fuel fuel s rhs.

(** src/bezier_spline.inc:617-640  operator+=(spline) *)
Definition spline_add_assign_64 (fuel : nat) (s rhs : spline V) : res (spline V) :=
  do s <- elevate_all_64 fuel (degrees rhs) s;
  do rhs <- elevate_all_64 fuel (degrees s) rhs;
  combine_assign vadd (number_of_control_points s) s rhs.

(** src/bezier_spline.inc:642-674  operator-(spline) *)
Definition spline_sub_64 (fuel : nat) (s rhs : spline V) : res (spline V) :=
  do return_spline <- Spline_deg_points_64 (degrees s) (control_points s);
  do return_spline <- for_up 0 (length (degrees s)) (fun par_dim r =>
    do q <- get (degrees rhs) par_dim;
    do p <- get (degrees s) par_dim;
    while_ fuel (fun _ => p <? q) (fun y => OrderElevate_64 y par_dim) r) return_spline;
  do rhs <- elevate_all_64 fuel (degrees s) rhs;
  combine_assign vsub (number_of_control_points s) return_spline rhs.

(** src/bezier_spline.inc:676-699  operator-=(spline) *)
Definition spline_sub_assign_64 (fuel : nat) (s rhs : spline V) : res (spline V) :=
  do s <- elevate_all_64 fuel (degrees rhs) s;
  do rhs <- elevate_all_64 fuel (degrees s) rhs;
  combine_assign vsub (number_of_control_points s) s rhs.

Section WithTable.
Context (MAXB : nat).

(** global_id_with_new_degrees, src/bezier_spline.inc:262-271 *)
Definition multi_index_of_64 (nd : list nat) (global_id : nat) : res (list nat) :=
  do p0 <- get nd 0;
  do r <- mod64 global_id (w64 (p0 + 1));
  do mi <- set (repeat 0 (length nd)) 0 r;
  do '(mi, _) <- for_up 1 (length nd - 1) (fun i_para '(mi, gid) =>
    do pm <- get nd (i_para - 1);
    do gid <- div64 gid (w64 (pm + 1));
    do p <- get nd i_para;
    do r <- mod64 gid (w64 (p + 1));
    do mi <- set mi i_para r;
    Ok (mi, gid)) (mi, global_id);
  Ok mi.

(** src/bezier_spline.inc:229-326  DerivativeWRTParametricDimension.  Here [new_degrees[k] -= orders[k]]
    and [p - i] wrap around. *)
Definition DerivativeWRT_64 (s : spline V) (orders : list nat) : res (spline V) :=
  do '(nd, cps) <- for_up 0 (length (degrees s)) (fun i_para_dim '(nd, cps) =>
    do k <- get orders i_para_dim;
    if k =? 0 then Ok (nd, cps) else
    do q <- get nd i_para_dim;
    do nd <- set nd i_para_dim (w64_sub q k);
    do p <- get (degrees s) i_para_dim;
    do factor <- for_up 1 (k - 1) (fun i f => Ok (smul f (sofnat (w64_sub p i)))) (sofnat p);
    do n <- count_points_64 nd;
    do cps <- for_up 0 n (fun i_point cps =>
      do mi <- multi_index_of_64 nd i_point;
      do i_point_index <- GlobalToLocalIndex_64 s mi;
      do '(cps, _) <- for_up 1 k (fun j_point_offset '(cps, mi) =>
        do m <- get mi i_para_dim;
        do mi <- set mi i_para_dim (w64 (m + 1));
        do b <- choose_64 MAXB (Z.of_nat k) (Z.of_nat j_point_offset);
        let local_coefficient :=
          smul (if Nat.even j_point_offset then s1 else sopp s1) (sofN b) in
        do gi <- GlobalToLocalIndex_64 s mi;
        do x <- get cps gi;
        do y <- get cps i_point_index;
        do cps <- set cps i_point_index (vadd y (vscale local_coefficient x));
        Ok (cps, mi)) (cps, mi);
      do y <- get cps i_point_index;
      set cps i_point_index
        (vscale (smul (if Nat.even k then s1 else sopp s1) factor) y)) cps;
    Ok (nd, cps)) (degrees s, control_points s);
  do derivative <- Spline_deg_64 limit nd;
  do dcps <- for_up 0 (number_of_control_points derivative) (fun i_point dcps =>
    do mi <- LocalToGlobalIndex_64 derivative i_point;
    do gi <- GlobalToLocalIndex_64 s mi;
    do x <- get cps gi;
    set dcps i_point x) (control_points derivative);
  Ok (with_cps derivative dcps).
End WithTable.
End Generic.

Section Scalar.
Context (limit MAXB : nat).
Context {T : Type} {o : SOps T}.

Definition spline_mul_ss_64 := spline_mul_64 limit MAXB (V1 := T) (V2 := T) (V3 := T) smul.

(** src/bezier_spline.inc:736-741 and 1157-1164 *)
Definition const_one_64 (dim : nat) : res (spline T) := Spline_deg_points_64 (repeat 0 dim) [s1].

(** src/bezier_spline.inc:727-760  RaisePower *)
Fixpoint RaisePower_rec_64 (fuel : nat) (s : spline T) (power : nat) : res (spline T) :=
  match fuel with
  | O => Diverge
  | S f =>
    if power =? 0 then const_one_64 (length (degrees s))
    else if power =? 1 then Ok s
    else
      do r <- RaisePower_rec_64 f s (power / 2);
      do rr <- spline_mul_ss_64 r r;
      if power mod 2 =? 0 then Ok rr else spline_mul_ss_64 rr s
  end.
Definition RaisePower_64 (s : spline T) (power : nat) : res (spline T) :=
  RaisePower_rec_64 (S power) s power.
End Scalar.

(** ** Composition *)
Section Compose.
Context (limit MAXB : nat).
Context {T V : Type} {o : SOps T} {ov : VOps T V}.

(** src/bezier_spline.inc:701-725  ExtractDimension *)
Definition ExtractDimension_64 {d} (s : spline (point T d)) (dimension : nat) : res (spline T) :=
  if d <=? dimension then Throw else
  do e <- Spline_deg_64 limit (degrees s);
  do c <- for_up 0 (number_of_control_points s) (fun i c =>
    do x <- get (control_points s) i;
    do y <- pget d x dimension;
    set c i y) (control_points e);
  Ok (with_cps e c).

(** src/bezier_spline.inc:1149-1218  one direction of the Bernstein basis splines *)
Definition bernstein_basis_splines_64 (dim_in : nat) (p : nat) (c ic : spline T)
  : res (list (spline T)) :=
  do one <- const_one_64 dim_in;
  let dflt := mkSpline (repeat 0 dim_in) 0 (repeat 0 dim_in) [] in
  do b <- set (repeat dflt (w64 (p + 1))) 0 one;
  do '(b, _) <- for_up 1 p (fun i '(b, m) =>
    do m <- spline_mul_ss_64 limit MAXB m c;
    do b <- set b i m;
    Ok (b, m)) (b, one);
  do '(b, _) <- for_up 1 p (fun i '(b, m) =>
    do m <- spline_mul_ss_64 limit MAXB m ic;
    do x <- get b (p - i);
    do x <- spline_mul_ss_64 limit MAXB x m;
    do b <- set b (p - i) x;
    Ok (b, m)) (b, one);
  for_up 1 (p - 1) (fun i b =>
    do x <- get b (p - i);
    do k <- choose_64 MAXB (Z.of_nat p) (Z.of_nat i);
    do x <- scale_assign x (sofN k);
    set b (p - i) x) b.

Definition all_basis_splines_64 (outer : spline V) (dim_in : nat)
  (extract : nat -> res (spline T)) (inverse : spline T -> res (spline T))
  : res (list (list (spline T))) :=
  for_up 0 (length (degrees outer)) (fun k bs =>
    do p <- get (degrees outer) k;
    do c <- extract k;
    do ic <- inverse c;
    do b <- bernstein_basis_splines_64 dim_in p c ic;
    set bs k b) (repeat [] (length (degrees outer))).

(** src/bezier_spline.inc:1250-1258 and 1262-1271 *)
Definition tensor_spline_64 (bs : list (list (spline T))) (idx : list nat) (dim_out : nat)
  : res (spline T) :=
  do b0 <- get bs 0;
  do i0 <- get idx 0;
  do t <- get b0 i0;
  for_up 1 (dim_out - 1) (fun k t =>
    do b <- get bs k;
    do i <- get idx k;
    do x <- get b i;
    spline_mul_ss_64 limit MAXB t x) t.

Definition sum_degrees_64 (s : spline V) : nat := fold_left (fun a b => w64 (a + b)) (degrees s) 0.

(** src/bezier_spline.inc:1079-1302  ComposeNumeratorHelper *)
Definition ComposeNumerator_64 (outer : spline V) (inner_degrees : list nat)
  (extract : nat -> res (spline T)) (inverse : spline T -> res (spline T))
  : res (spline V) :=
  let new_degrees := map (fun p => w64 (p * sum_degrees_64 outer)) inner_degrees in
  do r <- Spline_deg_64 limit new_degrees;
  do bs <- all_basis_splines_64 outer (length inner_degrees) extract inverse;
  for_up 0 (number_of_control_points outer) (fun i r =>
    do idx <- LocalToGlobalIndex_64 outer i;
    do t <- tensor_spline_64 bs idx (length (degrees outer));
    do _ <- assert_ (list_eqb Nat.eqb new_degrees (degrees t));
    do c <- for_up 0 (number_of_control_points r) (fun j c =>
      do a <- get c j;
      do b <- get (control_points t) j;
      do q <- get (control_points outer) i;
      set c j (vadd a (vscale b q))) (control_points r);
    Ok (with_cps r c)) r.
Definition ComposeNumeratorSensitivity_64 (outer : spline V) (inner_degrees : list nat)
  (extract : nat -> res (spline T)) (inverse : spline T -> res (spline T))
  : res (list (spline T)) :=
  do bs <- all_basis_splines_64 outer (length inner_degrees) extract inverse;
  for_up 0 (number_of_control_points outer) (fun i out =>
    do idx <- LocalToGlobalIndex_64 outer i;
    do t <- tensor_spline_64 bs idx (length (degrees outer));
    Ok (out ++ [t])) [].

(** src/bezier_spline.inc:908-957  Compose, ComposeSensitivity (polynomial inner) *)
Definition Compose_64 {d} (outer : spline V) (inner : spline (point T d)) : res (spline V) :=
  do fits <- FitsIntoUnitCube inner;
  if negb fits then Throw else
  ComposeNumerator_64 outer (degrees inner) (ExtractDimension_64 inner) inverse_poly.
Definition ComposeSensitivity_64 {d} (outer : spline V) (inner : spline (point T d))
  : res (list (spline T)) :=
  do fits <- FitsIntoUnitCube inner;
  if negb fits then Throw else
  ComposeNumeratorSensitivity_64 outer (degrees inner) (ExtractDimension_64 inner) inverse_poly.
End Compose.
