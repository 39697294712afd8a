(** Scalars, physical points and their algebraic laws.

    [SOps]/[VOps] collect the operations the source uses on [ScalarType] and
    [PhysicalPointType]; the model only uses those.  [SField], [SOrder] and
    [VMod] are the laws of exact arithmetic; theorems assume them, and the
    instances for [Qc], [R] and [point S d] below discharge them. *)
From Coq Require Import Arith Lia List ZArith NArith Bool Ring Field.
From Coq Require Import QArith Qcanon Reals Lra.
From Verif Require Import Prelude.
Import ListNotations.
Local Open Scope nat_scope.

(** Operations on [ScalarType]. *)
Class SOps (S : Type) := {
  s0 : S; s1 : S;
  sadd : S -> S -> S; ssub : S -> S -> S; smul : S -> S -> S; sopp : S -> S;
  sdiv : S -> S -> S;
  sltb : S -> S -> bool;      (* operator<  *)
  seqb : S -> S -> bool;      (* operator== *)
  sofN : N -> S               (* static_cast<ScalarType>(integer) *)
}.

Declare Scope s_scope.
Delimit Scope s_scope with s.
Infix "+" := sadd : s_scope.
Infix "-" := ssub : s_scope.
Infix "*" := smul : s_scope.
Infix "/" := sdiv : s_scope.
Notation "- x" := (sopp x) : s_scope.
Notation "0" := s0 : s_scope.
Notation "1" := s1 : s_scope.

Definition sofnat {S} `{SOps S} (n : nat) : S := sofN (N.of_nat n).
(** [a <= b] as the source computes it on totally ordered values. *)
Definition sleb {S} `{SOps S} (a b : S) : bool := negb (sltb b a).

(** Division executed by the program: dividing by zero is an explicit outcome. *)
Definition divS {S} `{SOps S} (a b : S) : res S :=
  if seqb b s0 then NonFinite else Ok (sdiv a b).

Fixpoint spow {S} `{SOps S} (x : S) (n : nat) : S :=
  match n with O => s1 | Datatypes.S n' => smul x (spow x n') end.

(** Laws of an exact field of characteristic zero. *)
Class SField (S : Type) {o : SOps S} : Prop := {
  sf_th : field_theory s0 s1 sadd smul ssub sopp sdiv (sdiv s1) (@eq S);
  sf_eqb : forall a b : S, seqb a b = true <-> a = b;
  sf_ofN0 : sofN 0 = (s0 : S);
  sf_ofNS : forall n, sofN (N.succ n) = (sadd (sofN n) s1 : S);
  sf_char0 : forall n, sofN (N.succ n) <> (s0 : S)
}.

Definition slt {S} `{SOps S} (a b : S) : Prop := sltb a b = true.
Definition sle {S} `{SOps S} (a b : S) : Prop := sltb b a = false.

(** Laws of a total order compatible with the field. *)
Class SOrder (S : Type) {o : SOps S} : Prop := {
  so_irrefl : forall a : S, ~ slt a a;
  so_trans : forall a b c : S, slt a b -> slt b c -> slt a c;
  so_total : forall a b : S, slt a b \/ a = b \/ slt b a;
  so_add : forall a b c : S, slt a b -> slt (sadd a c) (sadd b c);
  so_mul : forall a b : S, slt s0 a -> slt s0 b -> slt s0 (smul a b);
  so_01 : slt (s0 : S) s1
}.

(** Operations on [PhysicalPointType] over [ScalarType]. *)
Class VOps (S V : Type) := {
  v0 : V;                     (* PhysicalPointType{} *)
  vadd : V -> V -> V; vsub : V -> V -> V; vopp : V -> V;
  vscale : S -> V -> V;       (* scalar * point and point * scalar *)
  veqb : V -> V -> bool
}.

Declare Scope v_scope.
Delimit Scope v_scope with v.
Infix "+" := vadd : v_scope.
Infix "-" := vsub : v_scope.
Infix "*" := vscale : v_scope.
Notation "- x" := (vopp x) : v_scope.

Class VMod (S V : Type) {o : SOps S} {ov : VOps S V} : Prop := {
  vm_comm : forall a b : V, vadd a b = vadd b a;
  vm_assoc : forall a b c : V, vadd a (vadd b c) = vadd (vadd a b) c;
  vm_0 : forall a : V, vadd v0 a = a;
  vm_opp : forall a : V, vadd a (vopp a) = v0;
  vm_sub : forall a b : V, vsub a b = vadd a (vopp b);
  vm_1 : forall a : V, vscale s1 a = a;
  vm_mul : forall (x y : S) (a : V), vscale (smul x y) a = vscale x (vscale y a);
  vm_dl : forall (x y : S) (a : V), vscale (sadd x y) a = vadd (vscale x a) (vscale y a);
  vm_dr : forall (x : S) (a b : V), vscale x (vadd a b) = vadd (vscale x a) (vscale x b);
  vm_eqb : forall a b : V, veqb a b = true <-> a = b
}.

(** A scalar is a one-dimensional physical point. *)
#[global] Instance VOps_scalar (S : Type) {o : SOps S} : VOps S S := {
  v0 := s0; vadd := sadd; vsub := ssub; vopp := sopp; vscale := smul; veqb := seqb
}.

(** [Point<d, S>]: src/point.hpp:40-70 (std::array<S, d>). *)
Fixpoint point (S : Type) (d : nat) : Type :=
  match d with O => unit | Datatypes.S d' => (S * point S d')%type end.

Fixpoint pconst {S} (d : nat) (x : S) : point S d :=
  match d with O => tt | Datatypes.S d' => (x, pconst d' x) end.
Fixpoint pmap {S} (d : nat) (f : S -> S) : point S d -> point S d :=
  match d with O => fun _ => tt | Datatypes.S d' => fun p => (f (fst p), pmap d' f (snd p)) end.
Fixpoint pmap2 {S} (d : nat) (f : S -> S -> S) : point S d -> point S d -> point S d :=
  match d with
  | O => fun _ _ => tt
  | Datatypes.S d' => fun p q => (f (fst p) (fst q), pmap2 d' f (snd p) (snd q))
  end.
Fixpoint peqb {S} (eqb : S -> S -> bool) (d : nat) : point S d -> point S d -> bool :=
  match d with
  | O => fun _ _ => true
  | Datatypes.S d' => fun p q => eqb (fst p) (fst q) && peqb eqb d' (snd p) (snd q)
  end.
(** Checked coordinate access [p[k]]. *)
Fixpoint pget {S} (d : nat) : point S d -> nat -> res S :=
  match d with
  | O => fun _ _ => UB
  | Datatypes.S d' => fun p k => match k with O => Ok (fst p) | Datatypes.S k' => pget d' (snd p) k' end
  end.
Fixpoint pset {S} (d : nat) : point S d -> nat -> S -> res (point S d) :=
  match d with
  | O => fun _ _ _ => UB
  | Datatypes.S d' => fun p k x =>
      match k with
      | O => Ok (x, snd p)
      | Datatypes.S k' => do q <- pset d' (snd p) k' x; Ok (fst p, q)
      end
  end.
(** Coordinates as a list (specification side). *)
Fixpoint plist {S} (d : nat) : point S d -> list S :=
  match d with O => fun _ => [] | Datatypes.S d' => fun p => fst p :: plist d' (snd p) end.

(** Point arithmetic, src/point.hpp:73-146; unary minus is multiplication by -1. *)
#[global] Instance VOps_point (S : Type) (d : nat) {o : SOps S} : VOps S (point S d) := {
  v0 := pconst d s0;
  vadd := pmap2 d sadd; vsub := pmap2 d ssub;
  vopp := pmap d (fun x => smul x (sopp s1));
  vscale := fun c => pmap d (fun x => smul x c);
  veqb := peqb seqb d
}.

(* ---------------------------------------------------------------------- *)
(** * Instances *)

Definition Qc_ltb (a b : Qc) : bool := match Qccompare a b with Lt => true | _ => false end.
#[global] Instance SOps_Qc : SOps Qc := {
  s0 := 0%Qc; s1 := 1%Qc; sadd := Qcplus; ssub := Qcminus; smul := Qcmult;
  sopp := Qcopp; sdiv := Qcdiv; sltb := Qc_ltb;
  seqb := Qc_eq_bool;
  sofN := fun n => Q2Qc (inject_Z (Z.of_N n))
}.

#[global] Instance SOps_R : SOps R := {
  s0 := R0; s1 := R1; sadd := Rplus; ssub := Rminus; smul := Rmult;
  sopp := Ropp; sdiv := Rdiv;
  sltb := fun a b => if Rlt_dec a b then true else false;
  seqb := fun a b => if Req_EM_T a b then true else false;
  sofN := fun n => IZR (Z.of_N n)
}.

#[global] Instance SField_Qc : SField Qc.
Proof.
  split.
  - destruct Qcft as [H1 H2 H3 H4]. split; auto.
    + intros p q. simpl. unfold Qcdiv. rewrite Qcmult_1_l. reflexivity.
    + intros p Hp. simpl. unfold Qcdiv. rewrite Qcmult_1_l. apply H4; auto.
  - intros a b. simpl. split.
    + apply Qc_eq_bool_correct.
    + intros ->. unfold Qc_eq_bool. destruct (Qc_eq_dec b b); congruence.
  - reflexivity.
  - intros n. apply Qc_is_canon. change (Qred (inject_Z (Z.of_N (N.succ n))) ==
      Qred (Qred (inject_Z (Z.of_N n)) + 1))%Q.
    rewrite !Qred_correct. rewrite N2Z.inj_succ. unfold Z.succ.
    rewrite inject_Z_plus. reflexivity.
  - intros n H. apply (f_equal this) in H.
    change (Qred (inject_Z (Z.of_N (N.succ n))) = 0%Q) in H.
    assert (H' : (inject_Z (Z.of_N (N.succ n)) == 0)%Q).
    { rewrite <- (Qred_correct (inject_Z (Z.of_N (N.succ n)))). rewrite H. reflexivity. }
    change 0%Q with (inject_Z 0) in H'. apply (proj1 (inject_Z_injective _ _)) in H'. lia.
Qed.

Lemma Qc_ltb_lt a b : Qc_ltb a b = true <-> (a < b)%Qc.
Proof.
  unfold Qc_ltb. rewrite Qclt_alt.
  destruct (a ?= b)%Qc; split; congruence.
Qed.

#[global] Instance SOrder_Qc : SOrder Qc.
Proof.
  split; unfold slt; simpl; intros; rewrite ?Qc_ltb_lt in *.
  - apply Qcle_not_lt. apply Qcle_refl.
  - eapply Qclt_trans; eauto.
  - destruct (Qc_dec a b) as [[H|H]|H]; auto.
  - change (Qred (a + c) < Qred (b + c))%Q. rewrite !Qred_correct. apply Qplus_lt_l; auto.
  - rewrite <- (Qcmult_0_l b). apply Qcmult_lt_compat_r; auto.
  - reflexivity.
Qed.

#[global] Instance SField_R : SField R.
Proof.
  split.
  - split; simpl; try apply RTheory; try apply R1_neq_R0; intros; unfold Rdiv.
    + now rewrite Rmult_1_l.
    + rewrite Rmult_1_l. apply Rinv_l; auto.
  - intros a b. simpl. destruct (Req_EM_T a b); split; congruence.
  - reflexivity.
  - intros n. simpl. rewrite N2Z.inj_succ, succ_IZR. reflexivity.
  - intros n H. simpl in H. apply (eq_IZR _ 0) in H. lia.
Qed.

#[global] Instance SOrder_R : SOrder R.
Proof.
  assert (L : forall a b : R, (if Rlt_dec a b then true else false) = true <-> (a < b)%R).
  { intros a b. destruct (Rlt_dec a b); split; congruence. }
  split; unfold slt; simpl; intros; rewrite ?L in *; try lra.
  apply Rmult_lt_0_compat; assumption.
Qed.

(* ---------------------------------------------------------------------- *)
(** * Consequences of the laws *)

Section Laws.
Context {S : Type} {o : SOps S} {F : SField S}.

Lemma sf_ring : ring_theory s0 s1 sadd smul ssub sopp (@eq S).
Proof. exact (F_R sf_th). Qed.

Add Field Sfield : sf_th.

Lemma sofN_add a b : sofN (a + b) = (sofN a + sofN b : S)%s.
Proof.
  induction a using N.peano_ind.
  - rewrite N.add_0_l, sf_ofN0. ring.
  - rewrite N.add_succ_l, !sf_ofNS, IHa. ring.
Qed.

Lemma sofN_mul a b : sofN (a * b) = (sofN a * sofN b : S)%s.
Proof.
  induction a using N.peano_ind.
  - rewrite N.mul_0_l, sf_ofN0. ring.
  - rewrite N.mul_succ_l, sofN_add, sf_ofNS, IHa. ring.
Qed.

Lemma sofnat_0 : sofnat 0 = (s0 : S).
Proof. apply sf_ofN0. Qed.
Lemma sofnat_S n : sofnat (Datatypes.S n) = (sofnat n + 1 : S)%s.
Proof. unfold sofnat. rewrite Nat2N.inj_succ. apply sf_ofNS. Qed.
Lemma sofnat_1 : sofnat 1 = (s1 : S).
Proof. rewrite sofnat_S, sofnat_0. ring. Qed.
Lemma sofnat_add a b : sofnat (a + b) = (sofnat a + sofnat b : S)%s.
Proof. unfold sofnat. rewrite Nat2N.inj_add. apply sofN_add. Qed.
Lemma sofnat_mul a b : sofnat (a * b) = (sofnat a * sofnat b : S)%s.
Proof. unfold sofnat. rewrite Nat2N.inj_mul. apply sofN_mul. Qed.
Lemma sofnat_sub a b : b <= a -> sofnat (a - b) = (sofnat a - sofnat b : S)%s.
Proof.
  intros. assert (E : sofnat a = (sofnat (a - b) + sofnat b : S)%s).
  { rewrite <- sofnat_add. f_equal. lia. }
  rewrite E. ring.
Qed.
Lemma sofnat_neq0 n : 0 < n -> sofnat n <> (s0 : S).
Proof.
  destruct n; [lia|]. intros _. unfold sofnat. rewrite Nat2N.inj_succ. apply sf_char0.
Qed.
Lemma s1_neq0 : (s1 : S) <> s0.
Proof. exact (F_1_neq_0 sf_th). Qed.

Lemma smul_cancel (a b c : S) : c <> s0 -> (c * a = c * b)%s -> a = b.
Proof.
  intros Hc H.
  assert (a = (c * a) / c)%s as -> by (field; auto).
  rewrite H. field; auto.
Qed.

Lemma smul_eq0 (a b : S) : (a * b = 0)%s -> a = s0 \/ b = s0.
Proof.
  intros H. destruct (seqb a s0) eqn:E.
  - left. apply sf_eqb; auto.
  - right. apply (smul_cancel b s0 a).
    + intros Ha. apply sf_eqb in Ha. congruence.
    + rewrite H. ring.
Qed.

Lemma smul_neq0 (a b : S) : a <> s0 -> b <> s0 -> (a * b)%s <> s0.
Proof. intros Ha Hb H. destruct (smul_eq0 _ _ H); auto. Qed.

Lemma seqb_refl (a : S) : seqb a a = true.
Proof. apply sf_eqb; auto. Qed.
Lemma seqb_neq (a b : S) : seqb a b = false <-> a <> b.
Proof.
  split.
  - intros H E. apply sf_eqb in E. congruence.
  - intros H. destruct (seqb a b) eqn:E; auto. apply sf_eqb in E. contradiction.
Qed.

Lemma divS_ok (a b : S) : b <> s0 -> divS a b = Ok (sdiv a b).
Proof. intros. unfold divS. rewrite (proj2 (seqb_neq b s0)); auto. Qed.

Lemma divS_inv (a b c : S) : divS a b = Ok c -> b <> s0 /\ c = sdiv a b.
Proof.
  unfold divS. destruct (seqb b s0) eqn:E; [discriminate|].
  injection 1 as <-. apply seqb_neq in E. auto.
Qed.

Lemma spow_0 (x : S) : spow x 0 = s1. Proof. reflexivity. Qed.
Lemma spow_S (x : S) n : spow x (Datatypes.S n) = (x * spow x n)%s. Proof. reflexivity. Qed.
Lemma spow_add (x : S) a b : spow x (a + b) = (spow x a * spow x b)%s.
Proof. induction a; simpl; [ring|rewrite IHa; ring]. Qed.
Lemma spow_mul (x : S) a b : spow x (a * b) = spow (spow x a) b.
Proof.
  induction b; [rewrite Nat.mul_0_r; reflexivity|].
  rewrite Nat.mul_succ_r, spow_add, IHb. simpl. ring.
Qed.
Lemma spow_mul_base (x y : S) n : spow (x * y)%s n = (spow x n * spow y n)%s.
Proof. induction n; simpl; [ring|rewrite IHn; ring]. Qed.
Lemma spow_1_l n : spow (s1 : S) n = s1.
Proof. induction n; simpl; [auto|rewrite IHn; ring]. Qed.
Lemma spow_0_l n : 0 < n -> spow (s0 : S) n = s0.
Proof. destruct n; [lia|]. intros; simpl; ring. Qed.
Lemma spow_neq0 (x : S) n : x <> s0 -> spow x n <> s0.
Proof. intros; induction n; simpl; [apply s1_neq0|apply smul_neq0; auto]. Qed.

(** A scalar is a module over itself. *)
#[global] Instance VMod_scalar : VMod S S.
Proof. split; simpl; intros; try ring. apply sf_eqb. Qed.

(** Points are a module, for every dimension. *)
#[global] Instance VMod_point (d : nat) : VMod S (point S d).
Proof.
  split; simpl.
  - induction d; simpl; intros; auto. f_equal; [ring|apply IHd].
  - induction d; simpl; intros; auto. f_equal; [ring|apply IHd].
  - induction d; simpl; intros; [destruct a; auto|]. destruct a; simpl; f_equal; [ring|apply IHd].
  - induction d; simpl; intros; auto. f_equal; [ring|apply IHd].
  - induction d; simpl; intros; auto. f_equal; [ring|apply IHd].
  - induction d; simpl; intros; [destruct a; auto|]. destruct a; simpl; f_equal; [ring|apply IHd].
  - induction d; simpl; intros; auto. f_equal; [ring|apply IHd].
  - induction d; simpl; intros; auto. f_equal; [ring|apply IHd].
  - induction d; simpl; intros; auto. f_equal; [ring|apply IHd].
  - induction d; simpl; intros; [destruct a, b; tauto|].
    destruct a as [a1 a2], b as [b1 b2]; simpl. rewrite andb_true_iff, sf_eqb, IHd.
    split; [intros [-> ->]; auto | injection 1; auto].
Qed.

End Laws.

(** * Deciding module identities

    The square-zero extension [S (+) V] is a commutative ring; a module identity
    is checked there by the [ring] tactic. *)
Section SqZero.
Context {S V : Type} {o : SOps S} {ov : VOps S V} {F : SField S} {M : VMod S V}.
Add Field Sfield : sf_th.

Definition ext : Type := (S * V)%type.
Definition e0 : ext := (s0, v0).
Definition e1 : ext := (s1, v0).
Definition eadd (a b : ext) : ext := ((fst a + fst b)%s, (snd a + snd b)%v).
Definition eopp (a : ext) : ext := ((- fst a)%s, vscale (- (1))%s (snd a)).
Definition esub (a b : ext) : ext := eadd a (eopp b).
Definition emul (a b : ext) : ext :=
  ((fst a * fst b)%s, (fst a * snd b + fst b * snd a)%v).
Definition inS (x : S) : ext := (x, v0).
Definition inV (x : V) : ext := (s0, x).

Lemma vadd_0_r (a : V) : (a + v0 = a)%v.
Proof. rewrite vm_comm. apply vm_0. Qed.
Lemma vadd_cancel (a b c : V) : (a + b = a + c)%v -> b = c.
Proof.
  intros H. rewrite <- (vm_0 b), <- (vm_0 c), <- (vm_opp a), (vm_comm a).
  rewrite <- !vm_assoc, H. reflexivity.
Qed.
Lemma vscale_0_l (a : V) : (s0 * a = v0)%v.
Proof.
  apply (vadd_cancel (s0 * a)%v). rewrite <- vm_dl, vadd_0_r. f_equal. ring.
Qed.
Lemma vscale_0_r (x : S) : (x * v0 = v0 :> V)%v.
Proof. apply (vadd_cancel (x * v0)%v). rewrite <- vm_dr, vm_0, vadd_0_r. reflexivity. Qed.
Lemma vopp_scale (a : V) : (- a = (- (1))%s * a)%v.
Proof.
  apply (vadd_cancel a). rewrite vm_opp.
  rewrite <- (vm_1 a) at 1. rewrite <- vm_dl.
  replace (1 + - (1))%s with (0%s : S) by ring. now rewrite vscale_0_l.
Qed.
Lemma vscale_opp (x : S) (a : V) : (x * (- a) = - (x * a))%v.
Proof. rewrite !vopp_scale, <- !vm_mul. f_equal. ring. Qed.

Lemma ext_ring : ring_theory e0 e1 eadd emul esub eopp (@eq ext).
Proof.
  split; unfold e0, e1, esub, eadd, emul, eopp, ext; simpl;
    intros; repeat match goal with x : (S * V)%type |- _ => destruct x; simpl end.
  - f_equal; [ring|apply vm_0].
  - f_equal; [ring|apply vm_comm].
  - f_equal; [ring|apply vm_assoc].
  - f_equal; [ring|]. rewrite vscale_0_r, vadd_0_r. apply vm_1.
  - f_equal; [ring|]. apply vm_comm.
  - f_equal; [ring|]. rewrite !vm_dr, <- !vm_mul, <- vm_assoc. f_equal; f_equal; f_equal; ring.
  - f_equal; [ring|]. rewrite !vm_dr, !vm_dl, <- !vm_assoc. f_equal.
    rewrite (vm_comm (s2 * v)%v). rewrite <- !vm_assoc. f_equal. apply vm_comm.
  - reflexivity.
  - f_equal; [ring|]. rewrite <- vopp_scale. apply vm_opp.
Qed.

Lemma inV_inj a b : inV a = inV b -> a = b.
Proof. unfold inV. congruence. Qed.
Lemma inV_add a b : inV (a + b)%v = eadd (inV a) (inV b).
Proof. unfold inV, eadd; simpl. f_equal. ring. Qed.
Lemma inV_opp a : inV (- a)%v = eopp (inV a).
Proof. unfold inV, eopp; simpl. f_equal; [ring|apply vopp_scale]. Qed.
Lemma inV_sub a b : inV (a - b)%v = esub (inV a) (inV b).
Proof. unfold esub. rewrite <- inV_opp, <- inV_add, vm_sub. reflexivity. Qed.
Lemma inV_0 : inV v0 = e0. Proof. reflexivity. Qed.
Lemma inV_scale x a : inV (x * a)%v = emul (inS x) (inV a).
Proof. unfold inV, inS, emul; simpl. f_equal; [ring|]. now rewrite vscale_0_l, vadd_0_r. Qed.
Lemma inS_add x y : inS (x + y)%s = eadd (inS x) (inS y).
Proof. unfold inS, eadd; simpl. now rewrite vm_0. Qed.
Lemma inS_opp x : inS (- x)%s = eopp (inS x).
Proof. unfold inS, eopp; simpl. now rewrite vscale_0_r. Qed.
Lemma inS_sub x y : inS (x - y)%s = esub (inS x) (inS y).
Proof.
  unfold esub. rewrite <- inS_opp, <- inS_add. f_equal. ring.
Qed.
Lemma inS_mul x y : inS (x * y)%s = emul (inS x) (inS y).
Proof. unfold inS, emul; simpl. now rewrite !vscale_0_r, vm_0. Qed.
Lemma inS_0 : inS s0 = e0. Proof. reflexivity. Qed.
Lemma inS_1 : inS s1 = e1. Proof. reflexivity. Qed.

End SqZero.

Ltac to_ext :=
  apply inV_inj;
  repeat first
    [ rewrite inV_add | rewrite inV_sub | rewrite inV_opp | rewrite inV_scale | rewrite inV_0
    | rewrite inS_add | rewrite inS_sub | rewrite inS_opp | rewrite inS_mul
    | rewrite inS_0 | rewrite inS_1 ].
