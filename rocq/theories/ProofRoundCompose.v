(** Error propagation through powers and compositions. *)
From Coq Require Import Arith Lia List ZArith NArith Bool Reals Lra Psatz.
From Verif Require Import Prelude Scalar Spec SpecSpline Sums Order Coord ModelBasis ModelSpline
  ModelRound SpecRound SpecRoundMul ProofIndex ProofBasis ProofEval ProofElevate ProofUnique ProofArith ProofMul ProofCompose ProofHull ProofCube ProofRound ProofRoundEval
  ProofRoundOps ProofRawMul ProofRoundMul ClaimsU.
Import ListNotations.
Local Open Scope R_scope.

Lemma for_up_inv2 {A B} (Inv : nat -> A -> B -> Prop) (f : nat -> A -> res A) (g : nat -> B -> res B) n : forall a x y,
  Inv a x y ->
  (forall i x y, (a <= i < a + n)%nat -> Inv i x y -> exists x' y', f i x = Ok x' /\ g i y = Ok y' /\ Inv (S i) x' y') ->
  exists x' y', for_up a n f x = Ok x' /\ for_up a n g y = Ok y' /\ Inv (a + n)%nat x' y'.
Proof.
  induction n as [|n IH]; intros a x y H0 HS; cbn [for_up].
  - exists x, y. rewrite Nat.add_0_r. auto.
  - destruct (HS a x y) as (x1 & y1 & -> & -> & H1); [lia|auto|]. cbn [bind].
    destruct (IH (S a) x1 y1 H1) as (x2 & y2 & E1 & E2 & H2); [intros; apply HS; auto; lia|].
    exists x2, y2. split; auto. split; auto. now rewrite <- plus_n_Sm, plus_Sn_m in *.
Qed.

Lemma map2_min_mul a b D : map2 Nat.min (map (Nat.mul a) D) (map (Nat.mul b) D) = map (Nat.mul (min a b)) D.
Proof. induction D; simpl; f_equal; auto. apply Nat.mul_min_distr_r. Qed.
Lemma n_coeffs_mul_le a b D : (a <= b)%nat -> (n_coeffs (map (Nat.mul a) D) <= n_coeffs (map (Nat.mul b) D))%nat.
Proof.
  intros H. induction D; cbn [map]; [lia|]. rewrite !n_coeffs_cons. apply Nat.mul_le_mono; auto. apply le_n_S, Nat.mul_le_mono_r. auto.
Qed.
Lemma map_mul_1' D : map (Nat.mul 1) D = D.
Proof. induction D; cbn [map]; f_equal; auto. lia. Qed.
Lemma map2_add_mul' a b D : map2 Nat.add (map (Nat.mul a) D) (map (Nat.mul b) D) = map (Nat.mul (a + b)) D.
Proof. induction D; simpl; f_equal; auto. lia. Qed.

Section Gen.
Context (p : nat) (rnd : R -> R) (Hp : (0 < p)%nat) (HR : nearest p rnd).
Let u := / 2 ^ p.
Let Hu : 0 <= u := unit_pos p.
Let Hu1 : u < 1 := unit_lt_1 p Hp.
Let Hr : forall x, Rabs (rnd x - x) <= u * Rabs x := nearest_error p rnd Hp HR.
Notation ornd := (SOps_rnd rnd).
Notation Vs := (VOps_scalar R (o := ornd)).
Notation Sr' := (Sr' u).
Notation Sr := (Sr u).
Notation close := (close p).
Context (MAXB : nat) (HB : (MAXB <= 68)%nat).

(** ** Powers *)
Definition near (k : nat) (B : R) (s' s : spline R) : Prop :=
  wf s' /\ wf s /\ degrees s' = degrees s /\ 0 <= B /\
  forall i, Er ((1 + u) ^ k) (nth i (control_points s') 0) (nth i (control_points s) 0) B.

Lemma near_mul j k A B (P' P Q' Q : spline R) : near j A P' P -> near k B Q' Q ->
  length (degrees Q) = length (degrees P) ->
  Forall (fun p => p < MAXB)%nat (map2 Nat.add (degrees P) (degrees Q)) ->
  exists r' r, spline_mul_ss (o := ornd) MAXB P' Q' = Ok r' /\ spline_mul_ss MAXB P Q = Ok r /\
    degrees r = map2 Nat.add (degrees P) (degrees Q) /\
    near (j + k + product_roundings (degrees P) (degrees Q)) (A * B) r' r.
Proof using Hp HR HB.
  intros (WP' & WP & DP & A0 & CP) (WQ' & WQ & DQ & B0 & CQ) HL HM.
  destruct (mul_err p rnd Hp HR MAXB HB (V1 := R) (V2 := R) (V3 := R) (ovr := Vs) (ov := VOps_scalar R (o := SOps_R)) (fun x => x) (fun _ _ => eq_refl) (fun _ _ => eq_refl)
    (fun _ _ => eq_refl) (fun _ _ => eq_refl) (smul (SOps := ornd)) (smul (SOps := SOps_R)) (S (j + k)) (A * B) eq_refl eq_refl 0 0 P' P Q' Q WP' WP WQ' WQ DP DQ HL HM)
    as (r' & r & E' & E & W' & W & D & D' & C).
  { intros i l. cbn [smul SOps_rnd SOps_R]. apply (Er_r p rnd Hp HR). apply (Er_m p Hp); auto. }
  exists r', r. split; [exact E'|]. split; [exact E|]. split; [exact D|]. split; [exact W'|]. split; [exact W|]. split; [exact D'|].
  split; [apply Rmult_le_pos; auto|].
  intros i. destruct (lt_dec i (n_coeffs (degrees r))) as [Hi|Hi].
  - eapply (Er_up p Hp); [|apply (C i Hi)]. unfold product_roundings. lia.
  - rewrite !nth_overflow by (rewrite (proj2 (proj2 (proj2 W'))) || rewrite (proj2 (proj2 (proj2 W))); rewrite ?D'; lia).
    apply (Er_up p Hp 0); [lia|]. eapply Er_weak; [cbn; lra| |apply (Er_xp p); lra]. apply Rmult_le_pos; auto.
Qed.

(** A power computed by repeated squaring. *)
Lemma RaisePower_near (s' s : spline R) j B N : near j B s' s -> forall fuel n, (n < fuel)%nat -> (n <= N)%nat ->
  Forall (fun p => n * p < MAXB)%nat (degrees s) ->
  exists r' r, RaisePower_rec (o := ornd) MAXB fuel s' n = Ok r' /\ RaisePower_rec MAXB fuel s n = Ok r /\
    degrees r = map (Nat.mul n) (degrees s) /\
    near (n * j + (n - 1) * (5 * length (degrees s) + 2 + n_coeffs (map (Nat.mul (N / 2)) (degrees s)))) (B ^ n) r' r.
Proof using Hp HR HB.
  intros Hs. pose proof Hs as (W' & W & DD & B0 & Hc). set (C := (5 * _ + 2 + _)%nat).
  induction fuel as [|fuel IH]; intros n Hn HN HF; [lia|]. cbn [RaisePower_rec].
  destruct (Nat.eqb_spec n 0) as [->|H0].
  { assert (HL : (0 < length (degrees s))%nat) by (destruct W as (Hd & _); destruct (degrees s); simpl; [congruence|lia]).
    assert (HN0 : repeat 0%nat (length (degrees s)) <> []) by (destruct (length (degrees s)); [lia|simpl; congruence]).
    rewrite DD. unfold const_one. rewrite !Spline_deg_points_ok by (auto; now rewrite (n_coeffs_0 MAXB HB)).
    eexists _, _. split; [reflexivity|]. split; [reflexivity|]. cbn [mk degrees control_points].
    split; [clear; induction (degrees s); simpl; f_equal; auto|].
    assert (WW : wf (mk (repeat 0%nat (length (degrees s))) [1] : spline R)) by (apply wf_mk; auto; now rewrite (n_coeffs_0 MAXB HB)).
    split; [exact WW|]. split; [exact WW|]. split; [reflexivity|]. split; [cbn; lra|]. intros [|i].
    - apply (Er_up p Hp 0); [lia|]. cbn. apply Er_exact_pos. lra.
    - apply (Er_up p Hp 0); [lia|]. cbn [nth pow control_points mk s1]. destruct i; (eapply Er_weak; [lra| |apply Er_exact_pos; lra]; lra). }
  destruct (Nat.eqb_spec n 1) as [->|H1].
  { exists s', s. split; auto. split; auto. split; [symmetry; apply map_mul_1'|].
    replace (1 * j + (1 - 1) * C)%nat with j by lia. rewrite pow_1. exact Hs. }
  set (h := (n / 2)%nat).
  assert (Hh : (n = 2 * h + n mod 2)%nat) by (apply Nat.div_mod; lia).
  assert (Hm : (n mod 2 < 2)%nat) by (apply Nat.mod_upper_bound; lia).
  assert (Hh2 : (h <= N / 2)%nat) by (apply Nat.div_le_mono; lia).
  assert (Hh1 : (1 <= h)%nat) by lia.
  destruct (IH h) as (r' & r & E' & E & Hd & Nr); [lia|lia| |].
  { eapply Forall_impl; [|exact HF]. intros q Hq. cbv beta in *. nia. }
  rewrite E', E. cbn [bind].
  destruct (near_mul _ _ _ _ _ _ _ _ Nr Nr) as (rr' & rr & Er' & Er0 & Dr & Nrr); auto.
  { rewrite Hd, map2_add_mul'. rewrite Forall_map. eapply Forall_impl; [|exact HF].
    intros q Hq. cbv beta in *. nia. }
  rewrite Er', Er0. cbn [bind]. rewrite Hd in Nrr.
  assert (PR : (product_roundings (map (Nat.mul h) (degrees s)) (map (Nat.mul h) (degrees s)) <= C)%nat).
  { unfold product_roundings, C. rewrite map2_min_mul, Nat.min_id, map_length.
    pose proof (n_coeffs_mul_le h (N / 2) (degrees s) Hh2). lia. }
  rewrite Hd, map2_add_mul' in Dr. rewrite <- Rdef_pow_add in Nrr.
  assert (Nrr' : near ((h + h) * j + (h + h - 1) * C) (B ^ (h + h)) rr' rr).
  { destruct Nrr as (X1 & X2 & X3 & X4 & X5). split; [auto|]. split; [auto|]. split; [auto|]. split; [auto|]. intros i. eapply (Er_up p Hp); [|apply X5]. nia. }
  destruct (Nat.eqb_spec (n mod 2) 0) as [E0|E0].
  - exists rr', rr. split; auto. split; auto. replace n with (h + h)%nat by lia. split; auto.
  - assert (Hmap : map2 Nat.add (degrees rr) (degrees s) = map (Nat.mul n) (degrees s)).
    { rewrite Dr. rewrite <- (map_mul_1' (degrees s)) at 2. rewrite map2_add_mul'. f_equal. f_equal. lia. }
    destruct (near_mul _ _ _ _ _ _ _ _ Nrr' Hs) as (q' & q & Eq' & Eq & Dq & Nq).
    { rewrite Dr, map_length. auto. }
    { rewrite Hmap, Forall_map. exact HF. }
    exists q', q. split; [exact Eq'|]. split; [exact Eq|]. split; [congruence|].
    assert (PR2 : (product_roundings (degrees rr) (degrees s) <= C)%nat).
    { unfold product_roundings, C. rewrite Dr. rewrite <- (map_mul_1' (degrees s)) at 3. rewrite map2_min_mul, map_length.
      pose proof (n_coeffs_mul_le (min (h + h) 1) (N / 2) (degrees s) ltac:(lia)). lia. }
    replace (B ^ n) with (B ^ (h + h) * B) by (replace n with (S (h + h)) by lia; cbn [pow]; ring).
    destruct Nq as (X1 & X2 & X3 & X4 & X5). split; [auto|]. split; [auto|]. split; [auto|]. split; [auto|]. intros i.
    eapply (Er_up p Hp); [|apply X5]. replace n with (S (h + h)) by lia. nia.
Qed.

(** ** Compositions *)
Section Comp.
Context (D : list nat) (HD : D <> []) (S0 : nat).
Context (HF : Forall (fun p => S0 * p < MAXB)%nat D).
Let E := (5 * length D + 2 + n_coeffs (map (Nat.mul S0) D))%nat.

(** Degrees [n D], relative error of [k] roundings, non-negative exact coefficients. *)
Definition rel (k n : nat) (s' s : spline R) : Prop := close k s' s /\ degrees s = map (Nat.mul n) D.
Lemma rel_le j k n s' s : (j <= k)%nat -> rel j n s' s -> rel k n s' s.
Proof using Hp HR. intros L (A & B). split; auto. apply (close_le p rnd Hp HR j); auto. Qed.

Lemma rel_mul j k m n a' a b' b : rel j m a' a -> rel k n b' b -> (m + n <= S0)%nat ->
  exists r' r, spline_mul_ss (o := ornd) MAXB a' b' = Ok r' /\ spline_mul_ss MAXB a b = Ok r /\ rel (j + k + E) (m + n) r' r.
Proof using Hp HR HB HF.
  intros (A & Da) (B & Db) L.
  destruct (mul_close p rnd Hp HR MAXB HB j k a' a b' b A B) as (r' & r & E' & E0 & Dr & C).
  { now rewrite Da, Db, !map_length. }
  { rewrite Da, Db, map2_add_mul', Forall_map. eapply Forall_impl; [|exact HF]. intros q Hq. cbv beta in *. nia. }
  exists r', r. split; [exact E'|]. split; [exact E0|]. split; [|rewrite Dr, Da, Db; apply map2_add_mul'].
  eapply (close_le p rnd Hp HR); [|exact C]. unfold product_roundings, E. rewrite Da, Db, map2_min_mul, map_length.
  pose proof (n_coeffs_mul_le (min m n) S0 D ltac:(lia)). lia.
Qed.

Lemma rel_one : exists one : spline R, const_one (o := ornd) (length D) = Ok one /\ const_one (length D) = Ok one /\ rel 0 0 one one.
Proof using Hp HR HB HD HF.
  assert (HN0 : repeat 0%nat (length D) <> []) by (destruct D; [congruence|simpl; congruence]).
  unfold const_one. rewrite !Spline_deg_points_ok by (auto; now rewrite (n_coeffs_0 MAXB HB)).
  eexists. split; [reflexivity|]. split; [reflexivity|].
  split; [|cbn [mk degrees]; clear; induction D; simpl; f_equal; auto].
  assert (WW : wf (mk (repeat 0%nat (length D)) [1] : spline R)) by (apply wf_mk; auto; now rewrite (n_coeffs_0 MAXB HB)).
  split; [exact WW|]. split; [exact WW|]. split; [reflexivity|]. intros i. apply (Sr'_x p rnd Hp HR).
  cbn [mk control_points]. destruct i as [|[|i]]; cbn; lra.
Qed.

Lemma wf_map_cps (f : R -> R) (s : spline R) : wf s -> wf (with_cps s (map f (control_points s))).
Proof using. intros (A & B & C & G). repeat split; auto. cbn [with_cps control_points degrees]. now rewrite map_length. Qed.
Lemma nth_map_R (f : R -> R) l i : f 0 = 0 -> nth i (map f l) 0 = f (nth i l 0).
Proof using. intros H. rewrite <- H at 1. apply map_nth. Qed.

Lemma rel_scale k n s' s c' c : rel k n s' s -> Sr' 1 c' c ->
  exists r' r, scale_assign (ov := Vs) s' c' = Ok r' /\ scale_assign (V := R) s c = Ok r /\ rel (k + 2) n r' r.
Proof using Hp HR HB HD HF.
  intros ((W' & W & DD & C) & Dn) Hc. unfold scale_assign. rewrite !map_points_ok by auto.
  eexists _, _. split; [reflexivity|]. split; [reflexivity|]. split; [|exact Dn].
  split; [apply wf_map_cps; auto|]. split; [apply wf_map_cps; auto|]. split; [exact DD|]. intros i.
  cbn [with_cps control_points vscale VOps_scalar smul SOps_rnd SOps_R].
  assert (Z : rnd (c' * 0) = 0) by (rewrite Rmult_0_r; apply (nearest_exact p); auto; apply repr_0).
  rewrite (nth_map_R (fun x => rnd (c' * x))), (nth_map_R (fun x => c * x)) by (auto; ring).
  eapply (Sr'_le p rnd Hp HR); [|apply (Sr'_mul p rnd Hp HR); [exact Hc|apply C]]. lia.
Qed.

Lemma binom_sr n k : Sr' 1 (sofN (SOps := ornd) (binom n k)) (sofN (SOps := SOps_R) (binom n k)).
Proof using Hp HR.
  cbn [sofN SOps_rnd SOps_R]. pose proof (ofN_nonneg (binom n k)). split; auto. apply (Sr_rnd rnd u Hu Hr Hu1); auto. apply Sr_exact.
Qed.

(** One direction. *)
Lemma basis_rel q c' c ic' ic : rel 0 1 c' c -> rel 1 1 ic' ic -> (q <= S0)%nat -> (q < MAXB)%nat ->
  exists b' b, bernstein_basis_splines (o := ornd) MAXB (length D) q c' ic' = Ok b' /\
    bernstein_basis_splines MAXB (length D) q c ic = Ok b /\ length b' = S q /\ length b = S q /\
    forall j, (j <= q)%nat -> exists s' s, nth_error b' j = Some s' /\ nth_error b j = Some s /\ rel (q * (E + 1) + E + 2) q s' s.
Proof using Hp HR HB HD HF.
  intros Hc Hi Hq Hm. unfold bernstein_basis_splines.
  destruct rel_one as (one & -> & -> & H1). cbn [bind].
  set (dflt := mkSpline _ _ _ _).
  rewrite set_ok by (rewrite repeat_length; lia). cbn [bind].
  set (b0 := upd_list _ _ _).
  assert (HL0 : length b0 = S q) by (unfold b0; rewrite length_upd, repeat_length; lia).
  destruct (for_up_inv2 (fun i '(b', m') '(b, m) => length b' = S q /\ length b = S q /\ rel ((i - 1) * E) (i - 1) m' m /\
    forall j, (j < i)%nat -> rel (j * E) j (nth j b' dflt) (nth j b dflt))
    (fun i '(b, m) => do m <- spline_mul_ss (o := ornd) MAXB m c'; do b <- set b i m; Ok (b, m))
    (fun i '(b, m) => do m <- spline_mul_ss MAXB m c; do b <- set b i m; Ok (b, m)) q 1 (b0, one) (b0, one))
    as ((b1' & m1') & (b1 & m1) & E1' & E1 & L1' & L1 & _ & P1).
  { split; auto. split; auto. split; [exact H1|]. intros j Hj. replace j with 0%nat by lia. unfold b0.
    rewrite nth_upd by (rewrite repeat_length; lia). rewrite Nat.eqb_refl. exact H1. }
  { intros i (b', m') (b, m) Hi' (L' & L & Hmm & HN).
    destruct (rel_mul _ _ _ _ _ _ _ _ Hmm Hc) as (x' & x & -> & -> & Hx); [lia|]. cbn [bind].
    rewrite !set_ok by lia. cbn [bind]. eexists (_, _), (_, _). split; [reflexivity|]. split; [reflexivity|]. rewrite !length_upd.
    assert (Hx' : rel (i * E) i x' x).
    { replace i with (i - 1 + 1)%nat at 2 by lia. eapply rel_le; [|exact Hx]. destruct i; [lia|]. nia. }
    split; auto. split; auto. split; [replace (S i - 1)%nat with i by lia; exact Hx'|].
    intros j Hj. rewrite !nth_upd by lia. destruct (Nat.eqb_spec j i) as [->|Hne]; auto. apply HN. lia. }
  rewrite E1', E1. cbn [bind].
  destruct (for_up_inv2 (fun i '(b', m') '(b, m) => length b' = S q /\ length b = S q /\ rel ((i - 1) * (E + 1)) (i - 1) m' m /\
    forall j, (j <= q)%nat -> if (i <=? q - j)%nat then rel (j * E) j (nth j b' dflt) (nth j b dflt)
      else rel (q * (E + 1) + E) q (nth j b' dflt) (nth j b dflt))
    (fun i '(b, m) => do m <- spline_mul_ss (o := ornd) MAXB m ic'; do x <- get b (q - i); do x <- spline_mul_ss (o := ornd) MAXB x m; do b <- set b (q - i) x; Ok (b, m))
    (fun i '(b, m) => do m <- spline_mul_ss MAXB m ic; do x <- get b (q - i); do x <- spline_mul_ss MAXB x m; do b <- set b (q - i) x; Ok (b, m))
    q 1 (b1', one) (b1, one))
    as ((b2' & m2') & (b2 & m2) & E2' & E2 & L2' & L2 & _ & P2).
  { split; auto. split; auto. split; [exact H1|]. intros j Hj. specialize (P1 j ltac:(lia)).
    destruct (Nat.leb_spec 1 (q - j)); [exact P1|]. replace j with q in * by lia. eapply rel_le; [|exact P1]. nia. }
  { intros i (b', m') (b, m) Hi' (L' & L & Hmm & HN).
    destruct (rel_mul _ _ _ _ _ _ _ _ Hmm Hi) as (x' & x & -> & -> & Hx); [lia|]. cbn [bind].
    rewrite !(get_ok dflt) by lia. cbn [bind].
    pose proof (HN (q - i)%nat ltac:(lia)) as Hq'. rewrite (proj2 (Nat.leb_le i (q - (q - i)))) in Hq' by lia.
    destruct (rel_mul _ _ _ _ _ _ _ _ Hq' Hx) as (y' & y & -> & -> & Hy); [lia|]. cbn [bind].
    rewrite !set_ok by lia. cbn [bind]. eexists (_, _), (_, _). split; [reflexivity|]. split; [reflexivity|]. rewrite !length_upd.
    split; auto. split; auto. split.
    { replace (S i - 1)%nat with (i - 1 + 1)%nat by lia. eapply rel_le; [|exact Hx]. nia. }
    intros j Hj. rewrite !nth_upd by lia. destruct (Nat.eqb_spec j (q - i)) as [->|Hne].
    - rewrite (proj2 (Nat.leb_gt (S i) (q - (q - i)))) by lia.
      replace q with (q - i + (i - 1 + 1))%nat at 2 by lia. eapply rel_le; [|exact Hy].
      assert (Hqi : exists a b, q = (a + b)%nat /\ i = S b) by (exists (q - (i - 1))%nat, (i - 1)%nat; lia).
      destruct Hqi as (a & b2 & -> & ->). replace (a + b2 - S b2)%nat with (a - 1)%nat by lia. replace (S b2 - 1)%nat with b2 by lia.
      destruct a as [|a]; [lia|]. replace (S a - 1)%nat with a by lia. nia.
    - specialize (HN j Hj). destruct (Nat.leb_spec i (q - j)), (Nat.leb_spec (S i) (q - j)); auto; lia. }
  rewrite E2', E2. cbn [bind].
  destruct (for_up_inv2 (fun i b' b => length b' = S q /\ length b = S q /\
    forall j, (j <= q)%nat -> if (i <=? q - j)%nat then rel (q * (E + 1) + E) q (nth j b' dflt) (nth j b dflt)
      else rel (q * (E + 1) + E + 2) q (nth j b' dflt) (nth j b dflt))
    (fun i b => do x <- get b (q - i); do k <- choose MAXB q i; do x <- scale_assign (ov := Vs) x (sofN (SOps := ornd) k); set b (q - i) x)
    (fun i b => do x <- get b (q - i); do k <- choose MAXB q i; do x <- scale_assign (V := R) x (sofN k); set b (q - i) x)
    (q - 1) 1 b2' b2)
    as (b3' & b3 & E3' & E3 & L3' & L3 & P3).
  { split; auto. split; auto. intros j Hj. specialize (P2 j Hj).
    destruct (Nat.leb_spec (1 + q) (q - j)); [lia|]. destruct (Nat.leb_spec 1 (q - j)); [exact P2|]. eapply rel_le; [|exact P2]. lia. }
  { intros i b' b Hi' (L' & L & HN). rewrite !(get_ok dflt) by lia. cbn [bind].
    rewrite choose_ok by lia. cbn [bind].
    pose proof (HN (q - i)%nat ltac:(lia)) as Hq'. rewrite (proj2 (Nat.leb_le i (q - (q - i)))) in Hq' by lia.
    destruct (rel_scale _ _ _ _ _ _ Hq' (binom_sr q i)) as (x' & x & -> & -> & Hx). cbn [bind].
    rewrite !set_ok by lia. eexists _, _. split; [reflexivity|]. split; [reflexivity|]. rewrite !length_upd. split; auto. split; auto.
    intros j Hj. rewrite !nth_upd by lia. destruct (Nat.eqb_spec j (q - i)) as [->|Hne].
    - rewrite (proj2 (Nat.leb_gt (S i) (q - (q - i)))) by lia. exact Hx.
    - specialize (HN j Hj). destruct (Nat.leb_spec i (q - j)), (Nat.leb_spec (S i) (q - j)); auto; lia. }
  exists b3', b3. split; [exact E3'|]. split; [exact E3|]. split; auto. split; auto. intros j Hj.
  exists (nth j b3' dflt), (nth j b3 dflt). split; [apply nth_error_nth'; lia|]. split; [apply nth_error_nth'; lia|].
  specialize (P3 j Hj). destruct (Nat.leb_spec (1 + (q - 1)) (q - j)); [|exact P3]. eapply rel_le; [|exact P3]. lia.
Qed.

(** All directions. *)
Lemma all_basis_rel {V} (outer : spline V) extract inverse' inverse : wf outer ->
  (forall k, (k < length (degrees outer))%nat -> exists c ic' ic, extract k = Ok c /\ inverse' c = Ok ic' /\ inverse c = Ok ic /\
     rel 0 1 c c /\ rel 1 1 ic' ic) ->
  Forall (fun q => q <= S0 /\ q < MAXB)%nat (degrees outer) ->
  exists bs' bs, all_basis_splines (o := ornd) MAXB outer (length D) extract inverse' = Ok bs' /\
    all_basis_splines MAXB outer (length D) extract inverse = Ok bs /\
    length bs' = length (degrees outer) /\ length bs = length (degrees outer) /\
    forall k j, (k < length (degrees outer))%nat -> (j <= nth k (degrees outer) 0)%nat ->
      exists s' s, nth_error (nth k bs' []) j = Some s' /\ nth_error (nth k bs []) j = Some s /\
        rel (nth k (degrees outer) 0%nat * (E + 1) + E + 2) (nth k (degrees outer) 0%nat) s' s.
Proof using Hp HR HB HD HF.
  intros Ho HE HQ. unfold all_basis_splines.
  destruct (for_up_inv2 (fun i bs' bs => length bs' = length (degrees outer) /\ length bs = length (degrees outer) /\
    forall k j, (k < i)%nat -> (j <= nth k (degrees outer) 0)%nat ->
      exists s' s, nth_error (nth k bs' []) j = Some s' /\ nth_error (nth k bs []) j = Some s /\
        rel (nth k (degrees outer) 0%nat * (E + 1) + E + 2) (nth k (degrees outer) 0%nat) s' s)
    (fun k bs => do p <- get (degrees outer) k; do c <- extract k; do ic <- inverse' c; do b <- bernstein_basis_splines (o := ornd) MAXB (length D) p c ic; set bs k b)
    (fun k bs => do p <- get (degrees outer) k; do c <- extract k; do ic <- inverse c; do b <- bernstein_basis_splines MAXB (length D) p c ic; set bs k b)
    (length (degrees outer)) 0 (repeat [] (length (degrees outer))) (repeat [] (length (degrees outer))))
    as (bs' & bs & E' & E0 & L' & L & HN).
  - rewrite repeat_length. split; auto. split; auto. intros; lia.
  - intros i b' b Hi (L' & L & HN). rewrite (get_ok 0%nat) by lia. cbn [bind].
    destruct (HE i ltac:(lia)) as (c & ic' & ic & -> & E1 & E2 & Hc & Hic). cbn [bind]. rewrite E1, E2. cbn [bind].
    rewrite Forall_forall in HQ. destruct (HQ (nth i (degrees outer) 0%nat)) as (HF1 & HF2); [apply nth_In; lia|].
    destruct (basis_rel _ _ _ _ _ Hc Hic HF1 HF2) as (x' & x & -> & -> & Lx' & Lx & Hx). cbn [bind].
    rewrite !set_ok by lia. eexists _, _. split; [reflexivity|]. split; [reflexivity|]. rewrite !length_upd. split; auto. split; auto.
    intros k j Hk Hj. rewrite !nth_upd by lia. destruct (Nat.eqb_spec k i) as [->|Hne]; auto. apply HN; auto. lia.
  - exists bs', bs. auto.
Qed.

Lemma tensor_rel bs' bs idx dim (ds : nat -> nat) :
  (0 < dim)%nat -> length bs' = dim -> length bs = dim -> length idx = dim -> (nsum dim ds <= S0)%nat ->
  (forall k, (k < dim)%nat -> exists s' s, nth_error (nth k bs' []) (nth k idx 0%nat) = Some s' /\ nth_error (nth k bs []) (nth k idx 0%nat) = Some s /\
     rel (ds k * (E + 1) + E + 2) (ds k) s' s) ->
  exists t' t, tensor_spline (o := ornd) MAXB bs' idx dim = Ok t' /\ tensor_spline MAXB bs idx dim = Ok t /\
    rel ((nsum dim ds + 2 * dim) * (E + 1)) (nsum dim ds) t' t.
Proof using Hp HR HB HD HF.
  intros Hd Hb' Hb Hi HS Hbs. unfold tensor_spline.
  rewrite !(get_ok []) by lia. cbn [bind]. rewrite !(get_ok 0%nat) by lia. cbn [bind].
  destruct (Hbs 0%nat Hd) as (t0' & t0 & E0' & E0 & H0). rewrite (get_some _ _ _ E0), (get_some _ _ _ E0'). cbn [bind].
  destruct (for_up_inv2 (fun i t' t => rel ((nsum i ds + 2 * i) * (E + 1) - E) (nsum i ds) t' t)
    (fun k t => do b <- get bs' k; do i <- get idx k; do x <- get b i; spline_mul_ss (o := ornd) MAXB t x)
    (fun k t => do b <- get bs k; do i <- get idx k; do x <- get b i; spline_mul_ss MAXB t x) (dim - 1) 1 t0' t0)
    as (t' & t & Et' & Et & Ht).
  - cbn [nsum]. rewrite Nat.add_0_l. eapply rel_le; [|exact H0]. nia.
  - intros i t' t Hk Ht. cbv beta. rewrite !(get_ok []) by lia. cbn [bind]. rewrite !(get_ok 0%nat) by lia. cbn [bind].
    destruct (Hbs i ltac:(lia)) as (s' & s & Es' & Es & Hs). rewrite (get_some _ _ _ Es), (get_some _ _ _ Es'). cbn [bind].
    destruct (rel_mul _ _ _ _ _ _ _ _ Ht Hs) as (r' & r & Er' & Er & Hr2).
    { change (nsum i ds + ds i)%nat with (nsum (S i) ds). transitivity (nsum dim ds); auto. apply nsum_le. lia. }
    rewrite Er', Er. exists r', r. split; auto. split; auto. change (nsum (S i) ds) with (nsum i ds + ds i)%nat.
    eapply rel_le; [|exact Hr2]. clear - Hk. nia.
  - exists t', t. split; [exact Et'|]. split; [exact Et|]. replace (1 + (dim - 1))%nat with dim in Ht by lia.
    eapply rel_le; [|exact Ht]. lia.
Qed.
End Comp.

Lemma nth_map_ltR (f : R -> R) l i : (i < length l)%nat -> nth i (map f l) 0 = f (nth i l 0).
Proof using. intros H. rewrite (nth_indep _ 0 (f 0)) by (now rewrite map_length). apply map_nth. Qed.
Lemma inverse_rel D c : wf c -> degrees c = map (Nat.mul 1) D -> (forall i, 0 <= nth i (control_points c) 0 <= 1) ->
  exists ic' ic, inverse_poly (o := ornd) c = Ok ic' /\ inverse_poly c = Ok ic /\ rel D 0 1 c c /\ rel D 1 1 ic' ic.
Proof using Hp HR HB.
  intros W Dc H. unfold inverse_poly, point_minus_spline, spline_unshift, unshift_assign.
  rewrite !map_points_ok by auto. cbn [bind]. rewrite !spline_neg_ok by (apply wf_map_cps; auto).
  eexists _, _. split; [reflexivity|]. split; [reflexivity|]. split.
  - split; auto. split; auto. split; auto. split; auto. intros i. apply (Sr'_x p rnd Hp HR). apply H.
  - split; [|exact Dc]. cbn [with_cps control_points]. rewrite !map_map.
    assert (Wf : forall f : R -> R, wf (with_cps (with_cps c (map f (control_points c))) (map (fun x => f x) (control_points c)))).
    { intros f. destruct W as (A & B & C & G). repeat split; auto. cbn [with_cps control_points degrees]. now rewrite map_length. }
    split; [|split; [|split; [reflexivity|]]].
    1,2: destruct W as (A & B & C & G); repeat split; auto; cbn [with_cps control_points degrees]; now rewrite map_length.
    cbn [with_cps control_points vopp vsub VOps_scalar ssub sopp SOps_rnd SOps_R s1].
    intros i. destruct (lt_dec i (length (control_points c))) as [Hi|Hi].
    2:{ rewrite !nth_overflow by (rewrite map_length; lia). apply (Sr'_x p rnd Hp HR). lra. }
    rewrite !(nth_map_ltR _ _ _) by auto. specialize (H i). set (x := nth i (control_points c) 0) in *.
    split; [lra|]. specialize (Hr (x - 1)). rewrite (Rabs_left1 (x - 1)) in Hr by lra.
    unfold ProofRoundEval.Sr. rewrite !pow_1. change R1 with 1. unfold Rabs in Hr. fold u.
    assert (U0 : 0 <= u * - (x - 1)) by (apply Rmult_le_pos; lra). destruct (Rcase_abs _); lra.
Qed.

Lemma fits_rnd d (s : spline (point R d)) : FitsIntoUnitCube (o := ornd) s = FitsIntoUnitCube s.
Proof using. reflexivity. Qed.
Lemma extract_rnd d (s : spline (point R d)) k : ExtractDimension (o := ornd) s k = ExtractDimension s k.
Proof using. reflexivity. Qed.
Lemma sum_degrees_list {V} (s : spline V) : sum_degrees s = list_sum (degrees s).
Proof using Hp HB. unfold sum_degrees, list_sum. apply fold_symmetric; intros; lia. Qed.

Section Outer.
Context {V : Type} (outer : spline V) (Ho : wf outer).
Notation d := (length (degrees outer)).
Context (inner : spline (point R d)) (Hi : wf inner).
Context (HC : forall q k, In q (control_points inner) -> (k < d)%nat -> 0 <= coord d q k <= 1).
Context (HF : Forall (fun p => list_sum (degrees outer) * p < MAXB)%nat (degrees inner)).
Context (HM : Forall (fun p => p < MAXB)%nat (degrees outer)).
Notation D := (degrees inner).
Notation S0 := (list_sum (degrees outer)).
Notation K := (sensitivity_roundings (degrees outer) (degrees inner)).

Lemma tensors_rel : exists bs' bs,
  all_basis_splines (o := ornd) MAXB outer (length D) (ExtractDimension (o := ornd) inner) (inverse_poly (o := ornd)) = Ok bs' /\
  all_basis_splines MAXB outer (length D) (ExtractDimension inner) inverse_poly = Ok bs /\
  forall i, exists t' t, tensor_spline (o := ornd) MAXB bs' (index_of (degrees outer) i) d = Ok t' /\
    tensor_spline MAXB bs (index_of (degrees outer) i) d = Ok t /\ rel D K S0 t' t.
Proof using Hp HR HB Ho Hi HC HF HM.
  assert (HD : D <> []) by apply Hi.
  destruct (all_basis_rel D HD S0 HF outer (ExtractDimension (o := ornd) inner) (inverse_poly (o := ornd)) inverse_poly Ho) as (bs' & bs & E' & E & L' & L & HN).
  { intros k Hk. rewrite extract_rnd. destruct (ExtractDimension_ok inner k Hi Hk) as (c & Ec & Wc & Dc & Cc).
    destruct (inverse_rel D c Wc) as (ic' & ic & I' & I & R1 & R2).
    - rewrite Dc. symmetry. apply map_mul_1'.
    - intros i. rewrite Cc. destruct (lt_dec i (length (control_points inner))) as [L|L].
      + destruct (nth_error (control_points inner) i) as [q|] eqn:Eq; [|apply nth_error_None in Eq; lia].
        rewrite (nth_indep _ 0 (coord d q k)) by (now rewrite map_length). rewrite (map_nth (fun p => coord d p k) _ q), (nth_error_nth _ _ q Eq).
        apply HC; auto. eapply nth_error_In; eauto.
      + rewrite nth_overflow by (rewrite map_length; lia). lra.
    - exists c, ic', ic. auto. }
  { apply Forall_forall. intros q Hq. rewrite Forall_forall in HM. split; auto.
    clear - Hq. induction (degrees outer); [destruct Hq|]. cbn [list_sum fold_right] in *. destruct Hq as [->|Hq]; [lia|]. specialize (IHl Hq). unfold list_sum in *. cbn [fold_right]. lia. }
  exists bs', bs. split; [exact E'|]. split; [exact E|]. intros i.
  assert (HS : nsum d (fun k => nth k (degrees outer) 0%nat) = S0).
  { rewrite <- sum_degrees_nsum. apply (sum_degrees_list outer). }
  destruct (tensor_rel D HD S0 HF bs' bs (index_of (degrees outer) i) d (fun k => nth k (degrees outer) 0%nat)) as (t' & t & Et' & Et & Ht); auto.
  - apply wf_dim; auto.
  - apply length_index_of.
  - lia.
  - intros k Hk. apply HN; auto. apply valid_nth. apply index_of_valid.
  - exists t', t. split; auto. split; auto. rewrite HS in Ht. exact Ht.
Qed.

Lemma Sens_rel : exists ts' ts, ComposeSensitivity (o := ornd) MAXB outer inner = Ok ts' /\ ComposeSensitivity MAXB outer inner = Ok ts /\
  length ts' = n_coeffs (degrees outer) /\ length ts = n_coeffs (degrees outer) /\
  (forall i, (i < n_coeffs (degrees outer))%nat -> exists t' t, nth_error ts' i = Some t' /\ nth_error ts i = Some t /\ rel D K S0 t' t) /\
  forall (ovr : VOps R V), exists r', Compose (o := ornd) (ov := ovr) MAXB outer inner = Ok r' /\ wf r' /\ degrees r' = map (Nat.mul S0) D /\
    forall j, (j < n_coeffs (degrees r'))%nat -> nth j (control_points r') (v0 (VOps := ovr)) =
      vsum (ov := ovr) (n_coeffs (degrees outer)) (fun i => vscale (VOps := ovr) (nth j (nth i (map control_points ts') []) 0) (nth i (control_points outer) (v0 (VOps := ovr)))).
Proof using Hp HR HB Ho Hi HC HF HM.
  destruct tensors_rel as (bs' & bs & E' & E & HT).
  set (n := n_coeffs (degrees outer)).
  assert (CH : exists T' T0 : nat -> spline R, forall i, (i < n)%nat -> tensor_spline (o := ornd) MAXB bs' (index_of (degrees outer) i) d = Ok (T' i) /\
    tensor_spline MAXB bs (index_of (degrees outer) i) d = Ok (T0 i) /\ rel D K S0 (T' i) (T0 i)).
  { exists (fun i => match tensor_spline (o := ornd) MAXB bs' (index_of (degrees outer) i) d with Ok t => t | _ => mk [] [] end),
      (fun i => match tensor_spline MAXB bs (index_of (degrees outer) i) d with Ok t => t | _ => mk [] [] end).
    intros i _. destruct (HT i) as (t' & t & -> & -> & Ht). auto. }
  destruct CH as (T' & T0 & CH).
  destruct (FitsIntoUnitCube_ok inner Hi) as (b & Eb & Hb).
  assert (Hbt : b = true).
  { apply Hb. intros i k Hi1 Hk. unfold cpc. pose proof (HC (nth i (control_points inner) v0) k (nth_In _ _ Hi1) Hk). split; unfold sle; cbn [sltb SOps_R]; destruct (Rlt_dec _ _); auto; exfalso; cbn [s0 s1 SOps_R] in *; lra. }
  subst b.
  exists (map T' (seq 0 n)), (map T0 (seq 0 n)).
  split; [|split; [|split; [now rewrite map_length, seq_length|split; [now rewrite map_length, seq_length|split]]]].
  - unfold ComposeSensitivity. rewrite fits_rnd, Eb. cbn [bind negb].
    apply (ComposeSensitivity_raw (o := ornd) MAXB outer D _ _ bs' T' Ho E'). intros i Hi1. apply CH. auto.
  - unfold ComposeSensitivity. rewrite Eb. cbn [bind negb].
    apply (ComposeSensitivity_raw MAXB outer D _ _ bs T0 Ho E). intros i Hi1. apply CH. auto.
  - intros i Hi1. destruct (CH i Hi1) as (_ & _ & Rl). exists (T' i), (T0 i).
    split; [|split; [|exact Rl]]; (rewrite (nth_error_nth' _ (mk [] [])) by (now rewrite map_length, seq_length)); rewrite nth_map_seq; auto.
  - intros ovr. unfold Compose. rewrite fits_rnd, Eb. cbn [bind negb].
    destruct (ComposeNumerator_raw (o := ornd) (ov := ovr) MAXB outer D (ExtractDimension (o := ornd) inner) (inverse_poly (o := ornd)) bs' T') as (r & Er & Wr & Dr & Cr); auto.
    { apply Hi. }
    { intros i Hi1. destruct (CH i Hi1) as (X & _ & ((W1 & _ & D1 & _) & D2)). split; auto. split; auto. rewrite D1, D2. now rewrite sum_degrees_list. }
    exists r. split; [exact Er|]. split; auto. split; [rewrite Dr; now rewrite sum_degrees_list|].
    intros j Hj. rewrite Cr by auto. apply vsum_ext. intros i Hi1. f_equal.
    rewrite map_map, nth_map_seq by auto. reflexivity.
Qed.
End Outer.
End Gen.
