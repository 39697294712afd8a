(** Error propagation through products, powers and compositions. *)
From Coq Require Import Arith Lia List ZArith NArith Bool Reals Lra Psatz.
From Verif Require Import Prelude Scalar Spec SpecSpline Sums Order Coord ModelBasis ModelSpline
  ModelRound SpecRound SpecRoundMul ProofIndex ProofBasis ProofEval ProofElevate ProofUnique ProofArith ProofMul ProofCompose ProofHull ProofCube ProofRound ProofRoundEval
  ProofRoundOps ProofRawMul ClaimsU.
Import ListNotations.
Local Open Scope R_scope.

(** Number of terms of coefficient [ks] of a product. *)
Fixpoint terms (ms ns ks : list nat) : nat :=
  match ms, ns, ks with
  | m :: ms', n :: ns', k :: ks' => ((S (min k m) - (k - n)) * terms ms' ns' ks')%nat
  | _, _, _ => 1%nat
  end.
Lemma terms_le ms : forall ns ks, length ns = length ms -> length ks = length ms ->
  (terms ms ns ks <= n_coeffs (map2 Nat.min ms ns))%nat.
Proof.
  induction ms as [|m ms IH]; intros [|n ns] [|k ks] H K; try discriminate; [unfold n_coeffs; simpl; lia|].
  cbn [terms map2]. rewrite n_coeffs_cons. apply Nat.mul_le_mono; [lia|]. apply IH; auto.
Qed.
Lemma map2_min_le ms : forall ns ks, length ns = length ms -> Forall2 le ms ks ->
  (n_coeffs (map2 Nat.min ms ns) <= n_coeffs ks)%nat.
Proof.
  induction ms as [|m ms IH]; intros [|n ns] ks H K; try discriminate; inversion K; subst; [simpl; lia|].
  cbn [map2]. rewrite !n_coeffs_cons. apply Nat.mul_le_mono; [lia|]. apply IH; auto.
Qed.

Section Gen.
Context (p : nat) (rnd : R -> R) (Hp : (0 < p)%nat) (HR : nearest p rnd).
Let u := / 2 ^ p.
Let Hu : 0 <= u := unit_pos p.
Let Hu1 : u < 1 := unit_lt_1 p Hp.
Let Hr : forall x, Rabs (rnd x - x) <= u * Rabs x := nearest_error p rnd Hp HR.
Notation ornd := (SOps_rnd rnd).
Notation Vs := (VOps_scalar R (o := ornd)).
Notation Sr' := (Sr' u).
Notation Sr := (Sr u).

Lemma u_half : u <= 1 / 2.
Proof using Hp HR.
  unfold u. destruct p as [|q]; [lia|]. cbn [pow]. pose proof (pow_R1_Rle 2 q ltac:(lra)).
  assert (/ (2 * 2 ^ q) <= / 2) by (apply Rinv_le_contravar; lra). lra.
Qed.

(** A quotient of two positive quantities with one rounding each. *)
Lemma Sr_quot a b a' b' : 0 <= a -> 0 < b -> Sr 1 a' a -> Sr 1 b' b -> Sr 3 (a' / b') (a / b).
Proof using Hp HR.
  intros Ha Hb HA HB. pose proof u_half as U. pose proof (Sr_pos u Hu1 1 b' b Hb HB) as Pb. pose proof (Sr_nonneg u Hu1 1 a' a Ha HA) as Pa.
  destruct HA as (A1 & A2), HB as (B1 & B2). rewrite !pow_1 in *.
  assert (Q : 0 <= a / b) by (unfold Rdiv; apply Rmult_le_pos; auto; left; apply Rinv_0_lt_compat; auto).
  set (q := a / b) in *. assert (Eq : a = q * b) by (unfold q; field; lra).
  set (q' := a' / b'). assert (Eq' : a' = q' * b') by (unfold q'; field; lra).
  assert (Q' : 0 <= q') by (unfold q', Rdiv; apply Rmult_le_pos; auto; left; apply Rinv_0_lt_compat; auto).
  split.
  - apply (Rmult_le_reg_r b'); auto. rewrite <- Eq'. eapply Rle_trans; [|exact A1]. rewrite Eq.
    apply Rle_trans with ((1 - u) ^ 3 * q * ((1 + u) * b)); [apply Rmult_le_compat_l; auto; apply Rmult_le_pos; auto; apply pow_le; lra|].
    replace ((1 - u) ^ 3 * q * ((1 + u) * b)) with ((1 - u) * (q * b) * ((1 - u) ^ 2 * (1 + u))) by ring.
    rewrite <- (Rmult_1_r ((1 - u) * (q * b))) at 2. apply Rmult_le_compat_l; [apply Rmult_le_pos; [lra|apply Rmult_le_pos; lra]|].
    nra.
  - apply (Rmult_le_reg_r b'); auto. rewrite <- Eq'. eapply Rle_trans; [exact A2|]. rewrite Eq.
    apply Rle_trans with ((1 + u) ^ 3 * q * ((1 - u) * b)).
    2:{ apply Rmult_le_compat_l; auto. apply Rmult_le_pos; auto. apply pow_le; lra. }
    replace ((1 + u) ^ 3 * q * ((1 - u) * b)) with ((1 + u) * (q * b) * ((1 + u) ^ 2 * (1 - u))) by ring.
    rewrite <- (Rmult_1_r ((1 + u) * (q * b))) at 1. apply Rmult_le_compat_l; [apply Rmult_le_pos; [lra|apply Rmult_le_pos; lra]|].
    nra.
Qed.

Lemma IZR_binom_pos n k : (k <= n)%nat -> 0 < IZR (Z.of_N (binom n k)).
Proof using Hp HR. intros H. apply IZR_lt. pose proof (binom_pos n k H). lia. Qed.

Lemma rcoef_sr m n k i : (k <= m + n)%nat -> Sr' 4 (rcoef (o := ornd) m n k i) (rcoef (T := R) m n k i).
Proof using Hp HR.
  intros Hk. unfold rcoef. cbn [sdiv sofN SOps_R SOps_rnd].
  pose proof (IZR_binom_pos _ _ Hk) as B. pose proof (ofN_nonneg (binom m i * binom n (k - i))) as A.
  assert (Q : 0 <= IZR (Z.of_N (binom m i * binom n (k - i))) / IZR (Z.of_N (binom (m + n) k))).
  { unfold Rdiv. apply Rmult_le_pos; auto. left. apply Rinv_0_lt_compat. auto. }
  split; auto. apply (Sr_rnd rnd u Hu Hr Hu1); auto.
  apply Sr_quot; auto; apply (Sr_rnd rnd u Hu Hr Hu1); auto; try apply Sr_exact; lra.
Qed.
Lemma rcoef_nonneg m n k i : (k <= m + n)%nat -> 0 <= rcoef (T := R) m n k i.
Proof using Hp HR. intros H. apply (rcoef_sr m n k i H). Qed.

Lemma Sr'_add k a b x y : Sr' k a x -> Sr' k b y -> Sr' (S k) (rnd (a + b)) (x + y).
Proof using Hp HR. intros (A & B) (C & D). split; [lra|]. apply (Sr_rnd rnd u Hu Hr Hu1); [lra|]. apply Sr_add; auto. Qed.
Lemma Sr'_mul j k a b x y : Sr' j a x -> Sr' k b y -> Sr' (j + k + 1) (rnd (a * b)) (x * y).
Proof using Hp HR. intros (A & B) (C & D). split; [apply Rmult_le_pos; auto|]. apply (Sr_mul_rnd rnd u Hu Hr Hu1); auto. Qed.
Lemma Sr'_le j k y x : (j <= k)%nat -> Sr' j y x -> Sr' k y x.
Proof using Hp HR. intros L (A & B). split; auto. apply (Sr_le u Hu Hu1 j); auto. Qed.
Lemma Sr'_x x k : 0 <= x -> Sr' k x x.
Proof using Hp HR. intros H. apply (Sr'_le 0); [lia|]. split; auto. apply Sr_exact. Qed.

(** ** Products of non-negative coefficients *)
Lemma rprod_sr ja jb ms : forall ns ks (f' f g' g : nat -> R) jf fac' fac q c' c,
  length ns = length ms -> valid_index (map2 Nat.add ms ns) ks ->
  (forall i, Sr' ja (f' i) (f i)) -> (forall i, Sr' jb (g' i) (g i)) -> Sr' jf fac' fac ->
  Sr' (jf + 5 * length ms + 2 + ja + jb + q) c' c ->
  Sr' (jf + 5 * length ms + 2 + ja + jb + q + terms ms ns ks)
    (rprod (o := ornd) (o3 := Vs) (smul (SOps := ornd)) fac' c' ms ns ks f' g') (rprod (T := R) (V3 := R) smul fac c ms ns ks f g).
Proof using Hp HR.
  induction ms as [|m ms IH]; intros [|n ns] [|k ks] f' f g' g jf fac' fac q c' c HL HK Hf Hg Hfac Hc; try discriminate; try (inversion HK; fail).
  - cbn [rprod terms]. eapply Sr'_le; [|exact Hc]. lia.
  - cbn [map2] in HK. inversion HK as [|? ? ? ? Hk HK']; subst. cbn [rprod terms].
    generalize (S (min k m) - (k - n))%nat as N. intros N. induction N as [|N IHN].
    + eapply Sr'_le; [|exact Hc]. lia.
    + rewrite !seq_S, !fold_left_app. cbn [fold_left]. set (i := (k - n + N)%nat).
      set (c1' := fold_left _ _ c') in *. set (c1 := fold_left _ _ c) in *.
      pose proof (rcoef_sr m n k i Hk) as Hl.
      destruct ms as [|m' ms].
      * destruct ns; [|discriminate]. cbn [terms length] in *. cbn [vadd vscale VOps_scalar sadd smul SOps_rnd SOps_R].
        eapply Sr'_le; [|apply (Sr'_add (jf + 5 * 1 + 2 + ja + jb + q + N * 1) c1')]; [lia| |].
        -- eapply Sr'_le; [|exact IHN]. lia.
        -- eapply Sr'_le; [|apply Sr'_mul; [exact Hl|apply Sr'_mul; [exact Hfac|apply Sr'_mul; [apply Hf|apply Hg]]]]. lia.
      * cbn [length] in *. set (t := terms (m' :: ms) ns ks) in *.
        replace (jf + 5 * S (S (length ms)) + 2 + ja + jb + q + S N * t)%nat
          with ((jf + 4 + 1) + 5 * S (length ms) + 2 + ja + jb + (q + N * t) + t)%nat by lia.
        apply IH; auto.
        -- cbn [smul SOps_rnd SOps_R]. apply Sr'_mul; auto.
        -- eapply Sr'_le; [|exact IHN]. lia.
Qed.

Definition close (k : nat) (s' s : spline R) : Prop :=
  wf s' /\ wf s /\ degrees s' = degrees s /\ forall i, Sr' k (nth i (control_points s') 0) (nth i (control_points s) 0).
Lemma close_le j k s' s : (j <= k)%nat -> close j s' s -> close k s' s.
Proof using Hp HR. intros L (A & B & C & D). split; [exact A|]. split; [exact B|]. split; [exact C|]. intros i. apply (Sr'_le j); auto. Qed.

Lemma div_rnd n k : (k <= n)%nat -> seqb (SOps := ornd) (sofN (SOps := ornd) (binom n k)) (s0 (SOps := ornd)) = false.
Proof using Hp HR.
  intros H. cbn [seqb sofN s0 SOps_rnd]. destruct (Req_EM_T _ _) as [E|]; auto. exfalso.
  pose proof (IZR_binom_pos n k H) as B.
  assert (0 < rnd (IZR (Z.of_N (binom n k)))).
  { apply (Sr_pos u Hu1 1 _ _ B). apply (Sr_rnd rnd u Hu Hr Hu1); [lra|]. apply Sr_exact. }
  lra.
Qed.
Lemma div_R n k : (k <= n)%nat -> seqb (SOps := SOps_R) (sofN (binom n k)) s0 = false.
Proof using Hp HR.
  intros H. cbn [seqb sofN s0 SOps_R]. destruct (Req_EM_T _ _) as [E|]; auto. exfalso.
  pose proof (IZR_binom_pos n k H) as B. change R0 with 0 in E. lra.
Qed.

Context (MAXB : nat) (HB : (MAXB <= 68)%nat).

Lemma mul_close ja jb (P' P Q' Q : spline R) : close ja P' P -> close jb Q' Q ->
  length (degrees Q) = length (degrees P) ->
  Forall (fun p => p < MAXB)%nat (map2 Nat.add (degrees P) (degrees Q)) ->
  exists r' r, spline_mul_ss (o := ornd) MAXB P' Q' = Ok r' /\ spline_mul_ss MAXB P Q = Ok r /\
    degrees r = map2 Nat.add (degrees P) (degrees Q) /\
    close (ja + jb + product_roundings (degrees P) (degrees Q)) r' r.
Proof using Hp HR HB.
  intros (WP' & WP & DP & CP) (WQ' & WQ & DQ & CQ) HL HM.
  destruct (spline_mul_raw (o := ornd) (o3 := Vs) (smul (SOps := ornd)) 0 0 MAXB HB (fun n k H _ => div_rnd n k H) P' Q' WP' WQ') as (r' & E' & W' & D' & C').
  { congruence. }
  { now rewrite DP, DQ. }
  destruct (spline_mul_raw (T := R) (V3 := R) smul 0 0 MAXB HB (fun n k H _ => div_R n k H) P Q WP WQ HL HM) as (r & E & W & D & C).
  exists r', r. split; [exact E'|]. split; [exact E|]. split; [exact D|]. rewrite DP, DQ in D', C'.
  split; [exact W'|]. split; [exact W|]. split; [congruence|]. intros i.
  assert (Lr : length (control_points r) = n_coeffs (degrees r)) by (apply W).
  assert (Lr' : length (control_points r') = n_coeffs (degrees r')) by (apply W').
  destruct (lt_dec i (n_coeffs (degrees r))) as [Hi|Hi].
  2:{ rewrite !nth_overflow by (rewrite ?Lr, ?Lr', ?D', <- ?D; lia). apply Sr'_x. lra. }
  change (v0 (VOps := Vs)) with 0 in C'. change (v0 (V := R)) with 0 in C.
  rewrite C by auto. rewrite C' by (rewrite D', <- D; auto). rewrite D', D.
  set (ks := index_of _ i). assert (HK : valid_index (map2 Nat.add (degrees P) (degrees Q)) ks) by apply index_of_valid.
  eapply Sr'_le; [|apply (rprod_sr ja jb (degrees P) (degrees Q) ks) with (jf := 0%nat) (q := 0%nat)]; auto.
  - unfold product_roundings. pose proof (terms_le (degrees P) (degrees Q) ks HL) as T.
    rewrite (valid_index_length _ _ HK), length_map2_add in T by auto. specialize (T eq_refl). lia.
  - apply Sr'_x. cbn. lra.
  - apply Sr'_x. cbn. lra.
Qed.

(** ** Signed coefficients, seen through one coordinate *)
Lemma vander m n k : (k <= m + n)%nat ->
  vsum (T := R) (V := R) (S (min k m) - (k - n)) (fun t => rcoef (T := R) m n k (k - n + t)) = 1.
Proof using Hp HB.
  intros Hk.
  assert (E : prodsum (T := R) (V1 := R) (V2 := R) (V3 := R) smul [m] [n] [k] (fun _ => 1) (fun _ => 1) = 1).
  { pose proof (coef_unique (V := R) [(m + n)%nat]
      (fun i => prodsum (T := R) (V3 := R) smul [m] [n] (index_of [(m + n)%nat] i) (fun _ => 1) (fun _ => 1)) (fun _ => 1) ltac:(discriminate)) as C.
    assert (H : forall xs : list R, length xs = length [(m + n)%nat] ->
      bezier [(m + n)%nat] xs (fun i => prodsum (T := R) (V3 := R) smul [m] [n] (index_of [(m + n)%nat] i) (fun _ => 1) (fun _ => 1)) = bezier (V := R) [(m + n)%nat] xs (fun _ => 1)).
    { intros xs HX. pose proof (bezier_prodsum (T := R) (V1 := R) (V2 := R) (V3 := R) smul [m] [n] xs (fun _ => 1) (fun _ => 1) eq_refl HX) as B.
      cbn [map2] in B. rewrite B. rewrite !(bezier_const (V := R)) by auto. cbn [smul SOps_R]. ring. }
    specialize (C H k ltac:(unfold n_coeffs; simpl; lia)). cbv beta in C.
    assert (I : index_of [(m + n)%nat] k = [k]) by (cbn [index_of]; rewrite Nat.mod_small by lia; reflexivity).
    rewrite I in C. exact C. }
  rewrite <- E. cbn [prodsum]. apply vsum_ext. intros i Hi. cbn [vscale VOps_scalar smul SOps_R]. change (mul_coef (T := R) m n k (k - n + i)) with (rcoef (T := R) m n k (k - n + i)). ring.
Qed.

Notation rp1 M := (rprod (T := R) (V1 := unit) (V2 := unit) (V3 := R) (fun _ _ => M)).
Lemma fold_vsum {A} (F : R -> A -> R) (G : A -> R) l : (forall c a, F c a = c + G a) -> forall c,
  fold_left F l c = c + fold_right (fun a x => G a + x) 0 l.
Proof using. intros H. induction l as [|a l IH]; intros c; cbn [fold_left fold_right]; [ring|]. rewrite IH, H. ring. Qed.
Lemma fold_right_seq (G : nat -> R) a n : fold_right (fun i x => G i + x) 0 (seq a n) = vsum (T := R) (V := R) n (fun t => G (a + t)%nat).
Proof using Hp HB.
  revert a. induction n; intros a; [reflexivity|]. cbn [seq fold_right]. rewrite IHn.
  rewrite (vsum_first (V := R)). cbn [vadd VOps_scalar sadd SOps_R]. f_equal; [f_equal; lia|]. apply vsum_ext. intros i Hi. f_equal. lia.
Qed.
Lemma rprod_const M ms : ms <> [] -> forall ns ks fac c f g, length ns = length ms -> valid_index (map2 Nat.add ms ns) ks ->
  rp1 M fac c ms ns ks f g = c + fac * M.
Proof using Hp HB.
  induction ms as [|m ms IH]; [congruence|]. intros _ [|n ns] [|k ks] fac c f g HL HK; try discriminate; try (inversion HK; fail).
  cbn [map2] in HK. inversion HK as [|? ? ? ? Hk HK']; subst. cbn [rprod].
  rewrite (fold_vsum _ (fun i => rcoef (T := R) m n k i * (fac * M))).
  - rewrite fold_right_seq. f_equal. transitivity (1 * (fac * M)); [|ring]. rewrite <- (vander m n k Hk).
    rewrite (Rmult_comm _ (fac * M)).
    etransitivity; [|exact (ssum_scale (T := R) _ (fac * M) (fun t => rcoef (T := R) m n k (k - n + t)))].
    apply (ssum_ext (T := R)). intros i Hi. apply Rmult_comm.
  - intros c0 i. destruct ms as [|m' ms].
    + cbn [vadd vscale VOps_scalar sadd smul SOps_R]. ring.
    + rewrite IH; auto; [|discriminate]. cbn [smul SOps_R]. ring.
Qed.

Section Proj.
Context {V1 V2 V3 : Type} {ovr : VOps R V3} {ov : VOps R V3} (pr : V3 -> R).
Context (pr_add : forall a b, pr (vadd (VOps := ov) a b) = pr a + pr b)
        (pr_scale : forall c a, pr (vscale (VOps := ov) c a) = c * pr a)
        (pr_add_r : forall a b, pr (vadd (VOps := ovr) a b) = rnd (pr a + pr b))
        (pr_scale_r : forall c a, pr (vscale (VOps := ovr) c a) = rnd (c * pr a)).
Context (pm' pm : V1 -> V2 -> V3) (e : nat) (M : R).

Lemma rprod_er ms : forall ns ks (f' f : nat -> V1) (g' g : nat -> V2) jf fac' fac q c' c C,
  length ns = length ms -> valid_index (map2 Nat.add ms ns) ks ->
  (forall i j, Er ((1 + u) ^ e) (pr (pm' (f' i) (g' j))) (pr (pm (f i) (g j))) M) -> Sr' jf fac' fac ->
  Er ((1 + u) ^ (jf + 5 * length ms + 1 + e + q)) (pr c') (pr c) C ->
  Er ((1 + u) ^ (jf + 5 * length ms + 1 + e + q + terms ms ns ks))
    (pr (rprod (o := ornd) (o3 := ovr) pm' fac' c' ms ns ks f' g')) (pr (rprod (o := SOps_R) (o3 := ov) pm fac c ms ns ks f g))
    (rp1 M fac C ms ns ks (fun _ => tt) (fun _ => tt)).
Proof using Hp HR HB pr_add pr_scale pr_add_r pr_scale_r.
  induction ms as [|m ms IH]; intros [|n ns] [|k ks] f' f g' g jf fac' fac q c' c C HL HK HM Hfac Hc; try discriminate; try (inversion HK; fail).
  - cbn [rprod terms]. eapply (Er_up p Hp); [|exact Hc]. lia.
  - cbn [map2] in HK. inversion HK as [|? ? ? ? Hk HK']; subst. cbn [rprod terms].
    generalize (S (min k m) - (k - n))%nat as N. intros N. induction N as [|N IHN].
    + eapply (Er_up p Hp); [|exact Hc]. lia.
    + rewrite !seq_S, !fold_left_app. cbn [fold_left]. set (i := (k - n + N)%nat).
      set (c1' := fold_left _ _ c') in *. set (c1 := fold_left _ _ c) in *. set (c1C := fold_left _ _ C) in *.
      pose proof (rcoef_sr m n k i Hk) as (Hl0 & Hl). destruct Hfac as (Hf0 & Hfac).
      destruct ms as [|m' ms].
      * destruct ns; [|discriminate]. cbn [terms length] in *. rewrite pr_add, pr_add_r, !pr_scale, !pr_scale_r.
        cbn [vadd vscale VOps_scalar sadd smul SOps_R].
        apply (Er_up p Hp (S (jf + 5 * 1 + 1 + e + q + N * 1))); [lia|]. apply (Er_r p rnd Hp HR). apply Er_add.
        -- eapply (Er_up p Hp); [|exact IHN]. lia.
        -- apply (Er_up p Hp (S (4 + S (jf + e)))); [lia|]. apply (Er_r p rnd Hp HR). apply (Er_m p Hp); [apply (Sr_Er u Hu Hu1); auto|].
           apply (Er_r p rnd Hp HR). apply (Er_m p Hp); [apply (Sr_Er u Hu Hu1); auto|]. apply HM.
      * cbn [length] in *. set (t := terms (m' :: ms) ns ks) in *.
        replace (jf + 5 * S (S (length ms)) + 1 + e + q + S N * t)%nat
          with ((jf + 4 + 1) + 5 * S (length ms) + 1 + e + (q + N * t) + t)%nat by lia.
        apply IH; auto.
        -- cbn [smul SOps_rnd SOps_R]. apply Sr'_mul; split; auto.
        -- eapply (Er_up p Hp); [|exact IHN]. lia.
Qed.

Context (v0_r : v0 (VOps := ovr) = v0 (VOps := ov)) (pr_0 : pr (v0 (VOps := ov)) = 0).

Lemma mul_err d1 d2 (P' P : spline V1) (Q' Q : spline V2) : wf P' -> wf P -> wf Q' -> wf Q ->
  degrees P' = degrees P -> degrees Q' = degrees Q -> length (degrees Q) = length (degrees P) ->
  Forall (fun p => p < MAXB)%nat (map2 Nat.add (degrees P) (degrees Q)) ->
  (forall i j, Er ((1 + u) ^ e) (pr (pm' (nth i (control_points P') d1) (nth j (control_points Q') d2)))
     (pr (pm (nth i (control_points P) d1) (nth j (control_points Q) d2))) M) ->
  exists r' r, spline_mul (o := ornd) (o3 := ovr) MAXB pm' P' Q' = Ok r' /\ spline_mul (o3 := ov) MAXB pm P Q = Ok r /\
    wf r' /\ wf r /\ degrees r = map2 Nat.add (degrees P) (degrees Q) /\ degrees r' = degrees r /\
    forall i, (i < n_coeffs (degrees r))%nat ->
      Er ((1 + u) ^ (e + product_roundings (degrees P) (degrees Q) - 1)) (pr (nth i (control_points r') v0)) (pr (nth i (control_points r) v0)) M.
Proof using Hp HR HB pr_add pr_scale pr_add_r pr_scale_r v0_r pr_0.
  intros WP' WP WQ' WQ DP DQ HL HMB HE.
  destruct (spline_mul_raw (o := ornd) (o3 := ovr) pm' d1 d2 MAXB HB (fun n k H _ => div_rnd n k H) P' Q' WP' WQ') as (r' & E' & W' & D' & C').
  { congruence. }
  { now rewrite DP, DQ. }
  destruct (spline_mul_raw (T := R) (o3 := ov) pm d1 d2 MAXB HB (fun n k H _ => div_R n k H) P Q WP WQ HL HMB) as (r & E & W & D & C).
  exists r', r. rewrite DP, DQ in D', C'.
  split; [exact E'|]. split; [exact E|]. split; [exact W'|]. split; [exact W|]. split; [exact D|]. split; [congruence|].
  intros i Hi. rewrite v0_r in C'.
  rewrite C by auto. rewrite C' by (rewrite D', <- D; auto). rewrite D', D.
  set (ks := index_of _ i). assert (HK : valid_index (map2 Nat.add (degrees P) (degrees Q)) ks) by apply index_of_valid.
  assert (M0 : 0 <= M) by (apply (Er_pos _ _ _ _ (HE 0%nat 0%nat))).
  replace M with (rp1 M 1 0 (degrees P) (degrees Q) ks (fun _ => tt) (fun _ => tt)).
  2:{ rewrite rprod_const; auto; [ring|]. apply WP. }
  pose proof (rprod_er (degrees P) (degrees Q) ks (fun i => nth i (control_points P') d1) (fun i => nth i (control_points P) d1)
    (fun i => nth i (control_points Q') d2) (fun i => nth i (control_points Q) d2) 0 1 1 0 (v0 (VOps := ov)) (v0 (VOps := ov)) 0 HL HK HE (Sr'_x 1 0 ltac:(lra))) as K.
  eapply (Er_up p Hp); [|apply K].
  - unfold product_roundings. pose proof (terms_le (degrees P) (degrees Q) ks HL) as T.
    rewrite (valid_index_length _ _ HK), length_map2_add in T by auto. specialize (T eq_refl). lia.
  - rewrite pr_0. apply (Er_up p Hp 0); [lia|]. apply (Er_xp p). lra.
Qed.
End Proj.
End Gen.
