(** The subdivision of a rational spline is the pair of the subdivisions of its two splines. *)
From Coq Require Import Arith Lia List ZArith NArith Bool Reals Lra.
From Verif Require Import Prelude Scalar Spec SpecSpline SpecRational Sums Order Coord ModelBasis ModelSpline ModelRational
  ProofIndex ProofBasis ProofEval ProofArith ProofSplit ProofRational ProofRational2 ClaimsD ClaimsG.
Import ListNotations.

Section Pair.
Context {T V : Type} {o : SOps T} {ov : VOps T V}.
Notation ovs := (VOps_scalar T (o := o)).
Notation mk2 := (map2 (fun (u : spline V) (w : spline T) => mkR u w)).

Lemma split_two {X} {ox : VOps T X} (s : spline X) x k sp : SplitAtPosition (ov := ox) s x k = Ok sp ->
  exists l r, sp = [l; r] /\ degrees l = degrees s /\ degrees r = degrees s.
Proof.
  unfold SplitAtPosition. destruct (negb _); [discriminate|]. destruct (get (degrees s) k); try discriminate. cbn [bind].
  destruct (get (index_offsets s) k); try discriminate. cbn [bind]. destruct (for_up _ _ _ _) as [[c1 c2]| | | | |]; try discriminate. cbn [bind].
  intros E. injection E as <-. do 2 eexists. split; [reflexivity|]. split; reflexivity.
Qed.
Lemma pair_split (u : spline V) (w : spline T) x k su sw : degrees w = degrees u ->
  SplitAtPosition (ov := ov) u x k = Ok su -> SplitAtPosition (ov := ovs) w x k = Ok sw ->
  exists a b c d, su = [a; b] /\ sw = [c; d] /\ degrees a = degrees u /\ degrees b = degrees u /\ degrees c = degrees u /\ degrees d = degrees u /\
    R_SplitAtPosition (ov := ov) (mkR u w) x k = Ok [mkR a c; mkR b d].
Proof.
  intros D Eu Ew. destruct (split_two u x k su Eu) as (a & b & -> & D1 & D2). destruct (split_two w x k sw Ew) as (c & d & -> & D3 & D4).
  exists a, b, c, d. do 6 (split; [congruence|]). unfold R_SplitAtPosition. cbn [weighted_spline weight_function]. rewrite Eu. cbn [bind].
  rewrite Ew. cbn [bind get nth_error]. rewrite !R_mk_ok by congruence. reflexivity.
Qed.
Lemma map2_snoc uo wo u w : length wo = length uo -> mk2 (uo ++ [u]) (wo ++ [w]) = mk2 uo wo ++ [mkR u w].
Proof. revert wo. induction uo; intros [|y wo] L; try discriminate; cbn [map2 app]; auto. rewrite IHuo; auto. Qed.

Context (planes : list T) (k : nat).
Lemma pair_loop m : forall lo uo wo u0 u1 w0 w1 ru rw, degrees w1 = degrees u1 -> length wo = length uo ->
  for_up lo m (split_step (ov := ov) planes k) (uo, [u0; u1]) = Ok ru ->
  for_up lo m (split_step (ov := ovs) planes k) (wo, [w0; w1]) = Ok rw ->
  exists uo' wo' a b c d, ru = (uo', [a; b]) /\ rw = (wo', [c; d]) /\ length wo' = length uo' /\
    for_up lo m (rsplit_step (ov := ov) planes k) (mk2 uo wo, [mkR u0 w0; mkR u1 w1]) = Ok (mk2 uo' wo', [mkR a c; mkR b d]).
Proof.
  induction m; intros lo uo wo u0 u1 w0 w1 ru rw D L Eu Ew.
  - cbn [for_up] in *. injection Eu as <-. injection Ew as <-. exists uo, wo, u0, u1, w0, w1. auto.
  - cbn [for_up] in *. unfold split_step at 1 in Eu. unfold split_step at 1 in Ew. unfold rsplit_step at 1.
    destruct (get planes lo) as [pi| | | | |]; try discriminate. cbn [bind] in *.
    destruct (get planes (lo - 1)) as [pm| | | | |]; try discriminate. cbn [bind] in *.
    destruct (divS _ _) as [rel| | | | |]; try discriminate. cbn [bind get nth_error] in *.
    destruct (SplitAtPosition u1 rel k) as [su| | | | |] eqn:Su; try discriminate.
    destruct (SplitAtPosition w1 rel k) as [sw| | | | |] eqn:Sw; try discriminate.
    destruct (pair_split u1 w1 rel k su sw D Su Sw) as (a & b & c & d & -> & -> & D1 & D2 & D3 & D4 & E). rewrite E.
    cbn [bind get nth_error] in *.
    destruct (IHm (S lo) (uo ++ [a]) (wo ++ [c]) a b c d ru rw ltac:(congruence) ltac:(rewrite !app_length; cbn [length]; lia) Eu Ew)
      as (uo' & wo' & a' & b' & c' & d' & -> & -> & L' & E'). rewrite map2_snoc in E' by auto.
    exists uo', wo', a', b', c', d'. auto.
Qed.
Lemma pair_splits (u : spline V) (w : spline T) us ws : degrees w = degrees u ->
  SplitAtPositions (ov := ov) u planes k = Ok us -> SplitAtPositions (ov := ovs) w planes k = Ok ws ->
  R_SplitAtPositions (ov := ov) (mkR u w) planes k = Ok (mk2 us ws).
Proof.
  intros D Eu Ew. destruct (is_sorted planes) eqn:ES; [|unfold SplitAtPositions in Eu; rewrite ES in Eu; discriminate].
  destruct planes as [|p0 pl] eqn:EP.
  { unfold SplitAtPositions in Eu, Ew. unfold R_SplitAtPositions. cbn in Eu, Ew |- *. injection Eu as <-. injection Ew as <-. reflexivity. }
  rewrite <- EP in *. assert (Np : planes <> []) by (rewrite EP; discriminate).
  rewrite SplitAtPositions_step in Eu by auto. rewrite SplitAtPositions_step in Ew by auto. rewrite R_Positions_step by auto.
  destruct (SplitAtPosition u (nth 0 planes s0) k) as [su| | | | |] eqn:Su; try discriminate.
  destruct (SplitAtPosition w (nth 0 planes s0) k) as [sw| | | | |] eqn:Sw; try discriminate.
  destruct (pair_split u w _ k su sw D Su Sw) as (a & b & c & d & -> & -> & D1 & D2 & D3 & D4 & E). rewrite E. cbn [bind get nth_error] in *.
  destruct (for_up 1 _ (split_step (ov := ov) planes k) _) as [ru| | | | |] eqn:Lu; try discriminate.
  destruct (for_up 1 _ (split_step (ov := ovs) planes k) _) as [rw| | | | |] eqn:Lw; try discriminate.
  destruct (pair_loop (length planes - 1) 1 [a] [c] a b c d ru rw ltac:(congruence) eq_refl Lu Lw) as (uo & wo & a' & b' & c' & d' & -> & -> & L' & E').
  cbn [map2] in E'. rewrite E'. cbn [bind get nth_error] in *. injection Eu as <-. injection Ew as <-. rewrite map2_snoc by auto. reflexivity.
Qed.
End Pair.
