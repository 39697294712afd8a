(** Properties C53, C54: integer power and index sort. *)
From Coq Require Import Arith Lia List ZArith Bool.
From Verif Require Import Prelude ModelAlgorithms SpecAlgorithms ClaimsK.
Import ListNotations.
Local Open Scope nat_scope.

(** C53: integer power. *)
(** Missing from the full property: 64-bit types and [unsigned int] when the power does not fit into
    [int]. *)
Theorem C53_int_power_partial : forall (t : int_type) (base power : Z) (fuel : nat),
  standard_type t -> representable t base -> representable t power -> (0 <= power)%Z -> Z.to_nat power < fuel ->
  representable t (base ^ power) ->
  ((ibits t < 32)%Z \/ t = type_int \/ representable type_int (base ^ power)) ->
  IntPower fuel t base power = Ok (base ^ power)%Z.
Proof. exact c53_int_power_partial. Qed.
Print Assumptions C53_int_power_partial.
Theorem C53_int_power_wide : forall (t : int_type) (base power : Z) (fuel : nat),
  In (ibits t) [32; 64]%Z -> representable t base -> (0 <= power)%Z -> Z.to_nat power < fuel ->
  representable t (base ^ power) ->
  ((power <= 1)%Z -> IntPower fuel t base power = Ok (base ^ power)%Z) /\
  ((2 <= power)%Z -> (power mod 2 = 0)%Z ->
     (IntPower fuel t base power = Ok (base ^ power)%Z <-> representable type_int (base ^ power))) /\
  ((2 <= power)%Z -> (power mod 2 = 1)%Z -> representable type_int (base ^ (power / 2)) ->
     IntPower fuel t base power = Ok (base ^ power)%Z) /\
  ((2 <= power)%Z -> (power mod 2 = 1)%Z -> isigned t = true ->
     (IntPower fuel t base power = Ok (base ^ power)%Z <-> representable type_int (base ^ (power / 2)))).
Proof. exact c53_int_power_wide. Qed.
Print Assumptions C53_int_power_wide.
Theorem C53_int_power_refuted : (exists base power, representable (mkInt 64 true) base /\ (0 <= power)%Z /\
     representable (mkInt 64 true) (base ^ power) /\
     forall fuel r, IntPower fuel (mkInt 64 true) base power <> Ok r) /\
  (exists base power r, representable (mkInt 64 false) base /\ (0 <= power)%Z /\
     representable (mkInt 64 false) (base ^ power) /\ r <> (base ^ power)%Z /\
     forall fuel, 2 <= fuel -> IntPower fuel (mkInt 64 false) base power = Ok r) /\
  (exists base power, representable (mkInt 32 false) base /\ (0 <= power)%Z /\
     representable (mkInt 32 false) (base ^ power) /\
     forall fuel r, IntPower fuel (mkInt 32 false) base power <> Ok r).
Proof. exact c53_int_power_refuted. Qed.
Print Assumptions C53_int_power_refuted.
Example C53_case : standard_type (mkInt 64 true) /\ representable (mkInt 64 true) (-7) /\
  representable type_int ((-7) ^ 5) /\ IntPower 6 (mkInt 64 true) (-7) 5 = Ok (-16807)%Z /\
  IntPower 6 (mkInt 8 false) 3 5 = Ok 243%Z.
Proof. split; [unfold standard_type; simpl; auto 10|]. repeat split; vm_compute; congruence. Qed.
(** A power far beyond [int] whose half fits, and an even power just beyond [int]. *)
Example C53_wide_case : representable (mkInt 64 true) (3 ^ 39) /\ representable type_int (3 ^ (39 / 2)) /\
  ~ representable type_int (3 ^ 39) /\ IntPower 40 (mkInt 64 true) 3 39 = Ok (3 ^ 39)%Z /\
  representable (mkInt 64 true) (3 ^ 20) /\ ~ representable type_int (3 ^ 20) /\
  IntPower 21 (mkInt 64 true) 3 20 <> Ok (3 ^ 20)%Z.
Proof. unfold representable. vm_compute. repeat split; try congruence; intros (_ & H); apply H; reflexivity. Qed.

(** C54: index sort. *)
Theorem C54_sorts : forall (T : Type) (lt : T -> T -> bool) (v : list T),
  strict_weak_order lt -> exists idx, IndexListSort lt v = Ok idx /\ stable_sorting lt v idx.
Proof. exact c54_sorts. Qed.
Print Assumptions C54_sorts.
Theorem C54_unique : forall (T : Type) (lt : T -> T -> bool) (v : list T) (idx idx' : list nat),
  stable_sorting lt v idx -> stable_sorting lt v idx' -> idx = idx'.
Proof. exact c54_unique. Qed.
Print Assumptions C54_unique.
Example C54_case : strict_weak_order Nat.ltb /\ IndexListSort Nat.ltb [3; 1; 3; 0; 1] = Ok [3; 1; 4; 0; 2] /\
  stable_sorting Nat.ltb [3; 1; 3; 0; 1] [3; 1; 4; 0; 2].
Proof.
  assert (HS : strict_weak_order Nat.ltb).
  { split; [|split]; intros *; rewrite ?Nat.ltb_lt, ?Nat.ltb_ge; lia. }
  split; [exact HS|]. split; [reflexivity|].
  destruct (c54_sorts nat Nat.ltb [3; 1; 3; 0; 1] HS) as (idx & E & H). injection E as <-. exact H.
Qed.
