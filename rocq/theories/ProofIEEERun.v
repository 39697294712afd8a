(** Running the operations of a floating-point format on integers and exponents.

    Rounding is computed only where the nearest number is unique; a tie gives [DU], about which
    nothing is claimed. What such a run computes is therefore what every rounding to nearest gives. *)
From Coq Require Import Arith Lia List ZArith NArith Bool Reals Lra Psatz.
From Verif Require Import Prelude Scalar Spec SpecSpline ModelBasis ModelSpline ModelIEEE ProofParam ProofRound ProofIEEE.
Import ListNotations.
Local Open Scope R_scope.

Inductive dyadic := DF (m e : Z) | DE | DU.
Section Run.
Context (F : format).
Notation p := (prec F).
Definition P2 : Z := 2 ^ Z.of_nat p.
(** Digits of an integer. *)
Definition digits (m : Z) : Z := if (m =? 0)%Z then 0%Z else (Z.log2 (Z.abs m) + 1)%Z.
Definition fits (m e : Z) : bool :=
  if (emax F <=? e)%Z then (Z.abs m * 2 ^ (e - emax F) <=? P2 - 1)%Z else (Z.abs m <=? (P2 - 1) * 2 ^ (emax F - e))%Z.
Definition dfin (m e : Z) : dyadic := if fits m e then DF m e else DE.
Definition dround (m e : Z) : dyadic :=
  let e' := Z.max (e + digits m - Z.of_nat p) (emin F) in
  if (e' <=? e)%Z then dfin m e
  else let d := (e' - e)%Z in
       let q := ((m + 2 ^ (d - 1)) / 2 ^ d)%Z in
       if (2 * Z.abs (m - q * 2 ^ d) <? 2 ^ d)%Z then dfin q e' else DU.
Definition dlift2 (f : Z -> Z -> Z -> Z -> dyadic) (a b : dyadic) : dyadic :=
  match a, b with DU, _ | _, DU => DU | DE, _ | _, DE => DE | DF m e, DF n f' => f m e n f' end.
Definition dsum (s : Z) (m e n f : Z) : dyadic :=
  let g := Z.min e f in dround (m * 2 ^ (e - g) + s * (n * 2 ^ (f - g)))%Z g.
Definition SOps_run : SOps dyadic := {|
  s0 := DF 0 0; s1 := DF 1 0;
  sadd := dlift2 (dsum 1);
  ssub := dlift2 (dsum (-1));
  smul := dlift2 (fun m e n f => dround (m * n) (e + f));
  sopp := fun a => match a with DF m e => DF (- m) e | _ => a end;
  sdiv := fun _ _ => DU;
  sltb := fun _ _ => false;
  seqb := fun _ _ => false;
  sofN := fun k => dround (Z.of_N k) 0
|}.

Definition dval (m e : Z) : R := IZR m * powerRZ 2 e.
Definition runs (a : dyadic) (b : fl) : Prop :=
  match a with DF m e => b = Fin (dval m e) | DE => b = Exc | DU => True end.

Context (HF : reasonable F) (rnd : R -> R) (HR : nearest_on_grid F rnd).
Lemma two_Z d : (0 <= d)%Z -> IZR (2 ^ d) = powerRZ 2 d.
Proof. intros H. rewrite <- (Z2Nat.id d) at 1 by auto. rewrite <- pow_IZR, pow_powerRZ, Z2Nat.id; auto. Qed.
Lemma dval_shift m e g : (g <= e)%Z -> dval m e = dval (m * 2 ^ (e - g)) g.
Proof.
  intros H. unfold dval. rewrite mult_IZR, two_Z by lia. rewrite Rmult_assoc, <- powerRZ_add by lra.
  replace (e - g + g)%Z with e by lia. reflexivity.
Qed.
Lemma omega_d : omega F = dval (P2 - 1) (emax F).
Proof. unfold omega, dval, P2. rewrite minus_IZR, two_Z by lia. rewrite pow_powerRZ. reflexivity. Qed.
Lemma dval_le m n e : (m <= n)%Z -> dval m e <= dval n e.
Proof. intros H. unfold dval. apply Rmult_le_compat_r; [left; apply two_pos|]. apply IZR_le; auto. Qed.
Lemma dval_le_inv m n e : dval m e <= dval n e -> (m <= n)%Z.
Proof. intros H. unfold dval in H. apply le_IZR. apply Rmult_le_reg_r in H; auto. apply two_pos. Qed.
Lemma dval_abs m e : Rabs (dval m e) = dval (Z.abs m) e.
Proof. unfold dval. rewrite Rabs_mult, (Rabs_right (powerRZ 2 e)) by (left; apply two_pos). now rewrite abs_IZR. Qed.
Lemma dval_opp m e : - dval m e = dval (- m) e.
Proof. unfold dval. rewrite opp_IZR. ring. Qed.
Lemma fits_ok m e : fits m e = true <-> Rabs (dval m e) <= omega F.
Proof.
  rewrite dval_abs, omega_d. unfold fits. destruct (Z.leb_spec (emax F) e) as [H|H].
  - rewrite Z.leb_le. rewrite (dval_shift (Z.abs m) e (emax F)) by auto. split; [apply dval_le|apply dval_le_inv].
  - rewrite Z.leb_le. rewrite (dval_shift (P2 - 1) (emax F) e) by lia. split; [apply dval_le|apply dval_le_inv].
Qed.
Lemma digits_spec m : m <> 0%Z -> (2 ^ (digits m - 1) <= Z.abs m < 2 ^ digits m)%Z /\ (1 <= digits m)%Z.
Proof.
  intros H. unfold digits. destruct (Z.eqb_spec m 0); [contradiction|]. pose proof (Z.log2_spec (Z.abs m) ltac:(lia)) as (A & B).
  replace (Z.log2 (Z.abs m) + 1 - 1)%Z with (Z.log2 (Z.abs m)) by lia. pose proof (Z.log2_nonneg (Z.abs m)).
  rewrite <- Z.add_1_r in B. split; [split|]; auto; lia.
Qed.
(** A number of the format that is nearer than half the spacing is the rounded one. *)
Lemma rnd_unique x q e : (emin F <= e)%Z -> on_grid F (dval q e) -> Rabs (x - dval q e) < powerRZ 2 e / 2 ->
  e = emin F \/ powerRZ 2 (e + Z.of_nat p - 1) <= Rabs x -> rnd x = dval q e.
Proof using HF HR.
  intros He Gq Hq Hx. destruct (HR x) as ((m & f & Hm & Hf & E) & N). set (r := rnd x) in *.
  pose proof (N _ Gq) as N1. rewrite <- Rabs_Ropp in N1. replace (- (r - x)) with (x - r) in N1 by ring.
  rewrite <- (Rabs_Ropp (dval q e - x)) in N1. replace (- (dval q e - x)) with (x - dval q e) in N1 by ring.
  assert (D : Rabs (r - dval q e) < powerRZ 2 e).
  { replace (r - dval q e) with ((x - dval q e) - (x - r)) by ring. unfold Rminus at 1. eapply Rle_lt_trans; [apply Rabs_triang|]. rewrite Rabs_Ropp. lra. }
  assert (M : exists k, r = dval k e).
  { destruct (Z_le_gt_dec e f) as [H|H].
    - exists (m * 2 ^ (f - e))%Z. rewrite E. apply (dval_shift m f e). auto.
    - destruct Hx as [->|Hx]; [lia|]. exfalso.
      assert (BR : Rabs r < powerRZ 2 (e + Z.of_nat p - 1)).
      { rewrite E. change (Rabs (dval m f) < powerRZ 2 (e + Z.of_nat p - 1)). rewrite dval_abs. unfold dval.
        apply Rlt_le_trans with (powerRZ 2 (Z.of_nat p) * powerRZ 2 f).
        - apply Rmult_lt_compat_r; [apply two_pos|]. rewrite <- two_Z by lia. apply IZR_lt. auto.
        - rewrite <- powerRZ_add by lra. apply two_le. lia. }
      set (B := powerRZ 2 (e + Z.of_nat p - 1)) in *.
      assert (GB : on_grid F B) by (apply grid_w; auto; destruct HF; lia).
      assert (BP : 0 < B) by apply two_pos.
      destruct (Rle_lt_dec 0 x) as [X|X].
      + rewrite (Rabs_right x) in Hx by lra. pose proof (N B GB) as K. unfold Rabs in *.
        destruct (Rcase_abs r), (Rcase_abs (r - x)), (Rcase_abs (B - x)); lra.
      + rewrite (Rabs_left x) in Hx by lra. pose proof (N (- B) (grid_opp F B GB)) as K. unfold Rabs in *.
        destruct (Rcase_abs r), (Rcase_abs (r - x)), (Rcase_abs (- B - x)); lra. }
  destruct M as (k & K). rewrite K in D |- *. unfold dval in D. rewrite <- Rmult_minus_distr_r, Rabs_mult in D.
  rewrite (Rabs_right (powerRZ 2 e)) in D by (left; apply two_pos). rewrite <- minus_IZR, <- abs_IZR in D.
  assert (IZR (Z.abs (k - q)) < 1). { apply (Rmult_lt_reg_r (powerRZ 2 e)); [apply two_pos|]. lra. }
  assert (Z.abs (k - q) < 1)%Z by (apply lt_IZR; auto). replace k with q by lia. reflexivity.
Qed.
Lemma dround_ok m e : match dround m e with DU => True | a => runs a (deliver F rnd (dval m e)) end.
Proof using HF HR.
  unfold dround. set (e' := Z.max (e + digits m - Z.of_nat p) (emin F)). cbv zeta.
  assert (FIN : forall q f, rnd (dval m e) = dval q f -> match dfin q f with DU => True | a => runs a (deliver F rnd (dval m e)) end).
  { intros q f E. unfold dfin. pose proof (fits_ok q f) as K. unfold deliver. rewrite E.
    destruct (fits q f); cbn [runs]; destruct (Rle_dec _ _) as [L|L]; auto.
    - exfalso. apply L, K. reflexivity.
    - apply K in L. discriminate. }
  destruct (Z.leb_spec e' e) as [H|H].
  - apply FIN. apply (rnd_id F rnd HR). exists m, e. split; [|split; [lia|reflexivity]].
    destruct (Z.eq_dec m 0) as [->|M]; [simpl; apply Z.pow_pos_nonneg; lia|]. destruct (digits_spec m M) as ((_ & A) & A1).
    eapply Z.lt_le_trans; [exact A|]. apply Z.pow_le_mono_r; lia.
  - set (d := (e' - e)%Z). set (q := ((m + 2 ^ (d - 1)) / 2 ^ d)%Z).
    destruct (Z.ltb_spec (2 * Z.abs (m - q * 2 ^ d)) (2 ^ d)) as [T|T]; [|auto]. apply FIN.
    assert (D0 : (0 < d)%Z) by (unfold d; lia). assert (PD : (0 < 2 ^ d)%Z) by (apply Z.pow_pos_nonneg; lia).
    assert (Q : dval q e' = dval (q * 2 ^ d) e) by (apply dval_shift; lia).
    apply rnd_unique; [lia| | |].
    + apply grid_le; auto; [|lia].
      destruct (Z.eq_dec m 0) as [->|M].
      { assert (Q0 : q = 0%Z); [|rewrite Q0; simpl; apply Z.pow_nonneg; lia]. destruct (Z.eq_dec q 0) as [|NZ]; auto. exfalso. clearbody q.
        rewrite Z.sub_0_l, Z.abs_opp, Z.abs_mul, (Z.abs_eq (2 ^ d)) in T by lia. assert (1 <= Z.abs q)%Z by lia. nia. }
      destruct (digits_spec m M) as ((_ & A) & A1). fold P2.
      assert (A2 : (Z.abs m < P2 * 2 ^ d)%Z).
      { unfold P2. rewrite <- Z.pow_add_r by lia. eapply Z.lt_le_trans; [exact A|]. apply Z.pow_le_mono_r; lia. }
      assert (0 < P2)%Z by (apply Z.pow_pos_nonneg; lia).
      assert (A3 : (Z.abs q * 2 ^ d <= Z.abs m + Z.abs (m - q * 2 ^ d))%Z).
      { rewrite <- (Z.abs_eq (2 ^ d)) at 1 by lia. rewrite <- Z.abs_mul. lia. }
      destruct (Z_le_gt_dec (Z.abs q) P2) as [|GT]; auto. exfalso.
      assert ((P2 + 1) * 2 ^ d <= Z.abs q * 2 ^ d)%Z by (apply Z.mul_le_mono_nonneg_r; lia). lia.
    + rewrite Q. unfold dval. rewrite <- Rmult_minus_distr_r, Rabs_mult, (Rabs_right (powerRZ 2 e)) by (left; apply two_pos).
      rewrite <- minus_IZR, <- abs_IZR. replace e' with (d + e)%Z by (unfold d; lia). rewrite powerRZ_add by lra. rewrite <- (two_Z d) by lia.
      apply IZR_lt in T. rewrite mult_IZR in T. pose proof (two_pos e). nra.
    + destruct (Z.eq_dec e' (emin F)) as [|NE]; [left; auto|right].
      assert (E' : e' = (e + digits m - Z.of_nat p)%Z) by (unfold e' in *; lia).
      destruct (Z.eq_dec m 0) as [->|M]. { exfalso. unfold digits in E'. simpl in E'. lia. }
      destruct (digits_spec m M) as ((A & _) & A1). rewrite dval_abs. unfold dval.
      replace (e' + Z.of_nat p - 1)%Z with ((digits m - 1) + e)%Z by lia. rewrite powerRZ_add by lra.
      apply Rmult_le_compat_r; [left; apply two_pos|]. rewrite <- two_Z by lia. apply IZR_le. auto.
Qed.
Lemma dround_runs m e x : x = dval m e -> runs (dround m e) (deliver F rnd x).
Proof using HF HR. intros ->. pose proof (dround_ok m e). destruct (dround m e); auto. Qed.
Lemma dsum_val s m e n f : dval (m * 2 ^ (e - Z.min e f) + s * (n * 2 ^ (f - Z.min e f))) (Z.min e f) = dval m e + IZR s * dval n f.
Proof.
  rewrite (dval_shift m e (Z.min e f)), (dval_shift n f (Z.min e f)) by lia. unfold dval. rewrite plus_IZR, (mult_IZR s). ring.
Qed.
Lemma run_ring : rel_ring (o1 := SOps_run) (o2 := SOps_ieee F rnd) runs.
Proof using HF HR.
  constructor.
  - cbn. unfold dval. f_equal. ring.
  - cbn. unfold dval. f_equal. simpl. ring.
  - intros [m e| |] [n f| |] a b; cbn [runs sadd SOps_run SOps_ieee dlift2]; intros; subst; try exact I; try reflexivity; try (now destruct a); try (now destruct b).
    cbn [fl_lift2]. apply dround_runs. rewrite dsum_val. ring.
  - intros [m e| |] [n f| |] a b; cbn [runs ssub SOps_run SOps_ieee dlift2]; intros; subst; try exact I; try reflexivity; try (now destruct a); try (now destruct b).
    cbn [fl_lift2]. apply dround_runs. rewrite dsum_val. ring.
  - intros [m e| |] [n f| |] a b; cbn [runs smul SOps_run SOps_ieee dlift2]; intros; subst; try exact I; try reflexivity; try (now destruct a); try (now destruct b).
    cbn [fl_lift2]. apply dround_runs. unfold dval. rewrite mult_IZR, powerRZ_add by lra. ring.
  - intros k. cbn [sofN SOps_run SOps_ieee]. apply dround_runs. unfold dval. simpl. ring.
Qed.
Lemma run_mod : rel_mod (ov1 := VOps_scalar dyadic (o := SOps_run)) (ov2 := VOps_scalar fl (o := SOps_ieee F rnd)) runs runs.
Proof using HF HR.
  constructor; intros; [apply (rr_0 _ run_ring)|apply (rr_add _ run_ring); auto|apply (rr_mul _ run_ring); auto].
Qed.
End Run.
