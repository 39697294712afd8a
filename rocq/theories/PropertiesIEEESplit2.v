(** Property C118: subdivision at arbitrary planes with bounded exponents. *)
From Coq Require Import Arith Lia List Bool ZArith Reals Lra.
From Verif Require Import Prelude Scalar Spec SpecSpline Coord ModelBasis ModelSpline ModelRound SpecRound
  ModelIEEE SpecIEEE ModelIEEESplit ProofIEEE ClaimsIEEE ClaimsIEEESplit2 PropertiesIEEE PropertiesIEEESplit.
Import ListNotations.
Local Open Scope R_scope.

(** C118: an exception, or parts with finite control points. *)
Theorem C118_split : forall F rnd d (s : spline (point R d)) x k, reasonable F -> nearest_on_grid F rnd ->
  wf s -> (k < length (degrees s))%nat -> machine_points F s -> (forall t, x = Fin t -> on_grid F t) ->
  SplitAtPosition_ieee F rnd (fin_spline s) x k = Throw /\ ~ (exists t, x = Fin t /\ 0 < t < 1) \/
  exists t l r, x = Fin t /\ 0 < t < 1 /\ SplitAtPosition_ieee F rnd (fin_spline s) x k = Ok [fin_spline l; fin_spline r] /\
    machine_points F l /\ machine_points F r.
Proof. exact c118_split. Qed.
Print Assumptions C118_split.
Theorem C118_split_scalar : forall F rnd (s : spline R) x k, reasonable F -> nearest_on_grid F rnd ->
  wf s -> (k < length (degrees s))%nat -> machine_coeffs F s -> (forall t, x = Fin t -> on_grid F t) ->
  SplitAtPosition_ieee_s F rnd (fin_spline_s s) x k = Throw /\ ~ (exists t, x = Fin t /\ 0 < t < 1) \/
  exists t l r, x = Fin t /\ 0 < t < 1 /\ SplitAtPosition_ieee_s F rnd (fin_spline_s s) x k = Ok [fin_spline_s l; fin_spline_s r] /\
    machine_coeffs F l /\ machine_coeffs F r.
Proof. exact c118_split_scalar. Qed.
Print Assumptions C118_split_scalar.
Theorem C118_splits : forall F rnd d (s : spline (point R d)) planes k, reasonable F -> nearest_on_grid F rnd ->
  wf s -> (k < length (degrees s))%nat -> machine_points F s -> (forall t, In (Fin t) planes -> on_grid F t) ->
  SplitAtPositions_ieee F rnd (fin_spline s) planes k = Throw \/
  exists parts ts, SplitAtPositions_ieee F rnd (fin_spline s) planes k = Ok (map fin_spline parts) /\ length parts = S (length planes) /\
    Forall (fun q => wf q /\ degrees q = degrees s /\ machine_points F q) parts /\
    planes = map Fin ts /\ forall i, (i < length ts)%nat -> 0 < nth i ts 0 < 1 /\ ((S i < length ts)%nat -> nth i ts 0 < nth (S i) ts 0).
Proof. exact c118_splits. Qed.
Print Assumptions C118_splits.
Theorem C118_splits_scalar : forall F rnd (s : spline R) planes k, reasonable F -> nearest_on_grid F rnd ->
  wf s -> (k < length (degrees s))%nat -> machine_coeffs F s -> (forall t, In (Fin t) planes -> on_grid F t) ->
  SplitAtPositions_ieee_s F rnd (fin_spline_s s) planes k = Throw \/
  exists parts ts, SplitAtPositions_ieee_s F rnd (fin_spline_s s) planes k = Ok (map fin_spline_s parts) /\ length parts = S (length planes) /\
    Forall (fun q => wf q /\ degrees q = degrees s /\ machine_coeffs F q) parts /\
    planes = map Fin ts /\ forall i, (i < length ts)%nat -> 0 < nth i ts 0 < 1 /\ ((S i < length ts)%nat -> nth i ts 0 < nth (S i) ts 0).
Proof. exact c118_splits_scalar. Qed.
Print Assumptions C118_splits_scalar.
(** The largest doubles as control points. A plane that is no number, equal planes and a plane at 1
    are rejected after the first cut; the planes 1/4 and 3/4 give three parts. *)
Example C118_case :
  let M := omega binary64 in
  let s : spline R := mkSpline [2%nat] 3 [1%nat] [0; M; -M] in
  let f := SplitAtPositions_ieee_s binary64 in
  wf s /\ machine_coeffs binary64 s /\
  forall rnd, nearest_on_grid binary64 rnd ->
    f rnd (fin_spline_s s) [Fin (1 / 4); Exc] 0%nat = Throw /\
    f rnd (fin_spline_s s) [Fin (1 / 4); Fin (1 / 4)] 0%nat = Throw /\
    f rnd (fin_spline_s s) [Fin (1 / 4); Fin 1; Fin 1] 0%nat = Throw /\
    exists a b c, f rnd (fin_spline_s s) [Fin (1 / 4); Fin (3 / 4)] 0%nat = Ok [fin_spline_s a; fin_spline_s b; fin_spline_s c] /\
      Forall (machine_coeffs binary64) [a; b; c].
Proof.
  intros M s f. destruct C117_case as (HF & Hs & Ms & _). split; [exact Hs|]. split; [exact Ms|]. intros rnd HR.
  assert (G4 : on_grid binary64 (1 / 4)) by (exists 1%Z, (-2)%Z; split; [reflexivity|split; [simpl; lia|simpl; lra]]).
  assert (G1 : on_grid binary64 1) by (apply grid_1; exact HF).
  assert (K := fun pl => C118_splits_scalar binary64 rnd s pl 0 HF HR Hs ltac:(cbn; lia) Ms).
  split; [|split; [|split]].
  - destruct (K [Fin (1 / 4); Exc]) as [T|(parts & ts & _ & _ & _ & E & _)]; [|exact T|].
    + intros t [H|[H|[]]]; [injection H as <-; exact G4|discriminate].
    + destruct ts as [|x [|y ts]]; discriminate.
  - destruct (K [Fin (1 / 4); Fin (1 / 4)]) as [T|(parts & ts & _ & _ & _ & E & H)]; [|exact T|].
    + intros t [H|[H|[]]]; injection H as <-; exact G4.
    + destruct ts as [|x [|y [|z ts]]]; try discriminate. injection E as <- <-. destruct (H 0%nat ltac:(cbn; lia)) as (_ & H'). specialize (H' ltac:(cbn; lia)). cbn [nth] in H'. lra.
  - destruct (K [Fin (1 / 4); Fin 1; Fin 1]) as [T|(parts & ts & _ & _ & _ & E & H)]; [|exact T|].
    + intros t [H|[H|[H|[]]]]; injection H as <-; auto.
    + destruct ts as [|x [|y [|z [|w ts]]]]; try discriminate. injection E as <- <- <-. destruct (H 1%nat ltac:(cbn; lia)) as (H' & _). cbn [nth] in H'. lra.
  - destruct (C117_splits_scalar binary64 rnd s [1 / 4; 3 / 4] 0 HF HR Hs ltac:(cbn; lia) Ms quarters_machine) as (parts & cuts & E & L & _ & H).
    destruct parts as [|a [|b [|c [|e parts]]]]; try discriminate L. exists a, b, c. split; [exact E|].
    constructor; [apply (H 0%nat); cbn; lia|]. constructor; [apply (H 1%nat); cbn; lia|]. constructor; [apply (H 2%nat); cbn; lia|constructor].
Qed.
