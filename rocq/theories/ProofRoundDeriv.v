(** Rounding errors of the derivatives of basis functions and of EvaluateDerivative. *)
From Coq Require Import Arith Lia List ZArith NArith Bool Reals Lra.
From Verif Require Import Prelude Scalar Spec SpecSpline Sums Coord ModelBasis ModelSpline ModelRound SpecRound ProofIndex ProofBasis ProofEval ProofDeriv ProofParam
  ProofRound ProofRaw ProofRoundEval ProofRoundOps SpecRoundDeriv.
Import ListNotations.
Local Open Scope R_scope.

Lemma Er_opp g y x A : Er g y x A -> Er g (- y) (- x) A.
Proof. intros (H1 & H2). split; [replace (- y - - x) with (- (y - x)) by ring|]; rewrite Rabs_Ropp; auto. Qed.
Lemma Er_zero g : Er g 0 0 0.
Proof. unfold Er. rewrite Rminus_0_r, Rabs_R0, Rmult_0_r. lra. Qed.

(** The sum of the absolute values of the terms of a derivative. *)
Definition aterm (k p i : nat) (x : R) (j : nat) : R := IZR (Z.of_N (binom k j)) * bshift (p - k) i j x.
Definition abern (k p i : nat) (x : R) : R := falling p k * ssum (S k) (aterm k p i x).

Section Err.
Context (rnd : R -> R) (u : R) (Hu : 0 <= u) (Hr : forall x, Rabs (rnd x - x) <= u * Rabs x) (Hu1 : u < 1).
Local Notation ornd := (SOps_rnd rnd).

Lemma up (j k : nat) y x A : (j <= k)%nat -> Er ((1 + u) ^ j) y x A -> Er ((1 + u) ^ k) y x A.
Proof using Hu. intros H. apply Er_le. apply u_pow_le; auto. Qed.
Lemma ern (k : nat) y x A : Er ((1 + u) ^ k) y x A -> Er ((1 + u) ^ (k + 1)) (rnd y) x A.
Proof using Hu Hr. intros H. rewrite pow_add, pow_1. apply Er_rnd; auto. Qed.
Lemma emul (j k : nat) a b x y A B : Er ((1 + u) ^ j) a x A -> Er ((1 + u) ^ k) b y B -> Er ((1 + u) ^ (j + k)) (a * b) (x * y) (A * B).
Proof using Hu. intros. rewrite pow_add. apply Er_mul; auto; apply u_pow; auto. Qed.
Lemma exact_pos x : 0 <= x -> Er ((1 + u) ^ 0) x x x.
Proof. intros. apply Er_exact_pos. auto. Qed.

Lemma falling_err q k : exists a, for_up 0 k (fun i v => Ok (smul (SOps := ornd) v (sofnat (H := ornd) (q - i)))) (s1 (SOps := ornd)) = Ok a /\
  Er ((1 + u) ^ (2 * k)) a (falling q k) (falling q k).
Proof using Hu Hr.
  edestruct (for_up_inv (fun i a => Er ((1 + u) ^ (2 * i)) a (falling q i) (falling q i))) as (a & E & H).
  3:{ exists a. split; [exact E|]. exact H. }
  - apply exact_pos. cbn. lra.
  - intros i a Hi H. eexists. split; [reflexivity|]. cbn [smul SOps_rnd falling]. replace (2 * S i)%nat with (2 * i + 1 + 1)%nat by lia.
    apply ern. apply emul; [exact H|]. change 1%nat with (0 + 1)%nat at 1. cbn [sofnat sofN SOps_rnd].
    unfold sofnat. cbn [sofN SOps_rnd]. replace (IZR (Z.of_N (N.of_nat (q - i)))) with (INR (q - i)) by (rewrite nat_N_Z, <- INR_IZR_INZ; reflexivity).
    apply (ern 0). apply exact_pos. apply pos_INR.
Qed.
Lemma ffall_falling q k : ffall (T := R) q k = falling q k.
Proof. induction k; cbn [ffall falling]; [reflexivity|]. rewrite IHk, sofnat_INR. reflexivity. Qed.
Lemma bshift_nonneg q i j x : 0 <= x <= 1 -> 0 <= bshift q i j x.
Proof. intros. unfold bshift. destruct (j <=? i)%nat; [apply bernstein_nonneg'; auto|cbn; lra]. Qed.
Lemma ssum_nonneg n f : (forall j, (j < n)%nat -> 0 <= f j) -> 0 <= ssum (T := R) n f.
Proof. intros H. induction n; cbn [ssum]; [cbn; lra|]. assert (0 <= ssum n f) by (apply IHn; intros; apply H; lia). assert (0 <= f n) by (apply H; lia). cbn. lra. Qed.

Lemma BDeriv_er MAXB p x k : (MAXB <= 68)%nat -> (p < MAXB)%nat -> 0 <= x <= 1 -> exists l,
  BernsteinEvaluateDerivative (o := ornd) MAXB p x k = Ok l /\ length l = S p /\
  forall i, (i <= p)%nat -> Er ((1 + u) ^ (2 * p + k + 7)) (nth i l 0) (dbern k p i x) (abern k p i x).
Proof using Hu Hr Hu1.
  intros HB Hp Hx. unfold BernsteinEvaluateDerivative.
  rewrite (proj2 (Nat.ltb_lt p MAXB)) by auto. cbn [assert_ bind].
  assert (G0 : (p < k)%nat -> falling p k = 0) by (intros H; rewrite <- ffall_falling; exact (ffall_gt (T := R) (o := SOps_R) (F := SField_R) p k H)).
  destruct (Nat.ltb_spec p k) as [Hk|Hk].
  { eexists. split; [reflexivity|]. split; [rewrite repeat_length; lia|]. intros i Hi.
    change (s0 (SOps := ornd)) with 0. rewrite nth_repeat. unfold abern. rewrite dbern_gt, G0 by auto. rewrite Rmult_0_l. apply Er_zero. }
  destruct (Nat.eqb_spec k 0) as [->|Hk0].
  { destruct (Bernstein_sr rnd u Hu Hr Hu1 MAXB p x HB Hp Hx) as (l & E & L & H). exists l. split; auto. split; auto. intros i Hi.
    rewrite dbern_0. unfold abern, aterm, bshift. cbn [ssum falling]. rewrite binom_n_0, !Nat.sub_0_r. change (0 <=? i)%nat with true. cbv iota.
    replace (1 * _) with (bernstein p i x) by (cbn; ring). apply up with (2 * p + 3)%nat; [lia|]. apply Sr_Er; auto. apply bernstein_nonneg'; auto. }
  destruct (Bernstein_sr rnd u Hu Hr Hu1 MAXB (p - k) x HB ltac:(lia) Hx) as (basis & Eb & Lb & Nb). rewrite Eb. cbn [bind].
  destruct (falling_err p k) as (aux & Ea & Ha). rewrite Ea. cbn [bind].
  set (K0 := (2 * (p - k) + 5)%nat).
  edestruct (for_up_inv (fun i ev => length ev = S p /\ forall j, (j <= p)%nat ->
    if (j <? i)%nat then Er ((1 + u) ^ (2 * p + k + 7)) (nth j ev 0) (dbern k p j x) (abern k p j x) else nth j ev 0 = 0)) as (ev & E & HL & HN).
  3:{ rewrite E. exists ev. split; auto. split; auto. intros i Hi. specialize (HN i Hi). rewrite (proj2 (Nat.ltb_lt i _)) in HN by lia. auto. }
  - rewrite repeat_length. split; [lia|]. intros j Hj. apply (nth_repeat 0).
  - intros i ev Hi (HL & HN). cbv beta.
    assert (Hmin : Z.to_nat (Z.max 0 (i32 (u64 (Z.of_nat i + Z.of_nat k - Z.of_nat p)))) = (i + k - p)%nat).
    { rewrite (i32_u64_small MAXB) by lia. lia. }
    rewrite Hmin. set (kmin := (i + k - p)%nat).
    set (term := fun j => smul (smul (sgn (k + j)) (sofN (binom k j))) (bshift (T := R) (p - k) i j x)).
    edestruct (for_up_inv (fun m ev' => length ev' = S p /\ (forall j, j <> i -> nth j ev' 0 = nth j ev 0) /\
      Er ((1 + u) ^ (K0 + m)) (nth i ev' 0) (ssum m term) (ssum m (aterm k p i x)))) as (ev' & E & HL' & HO & HI).
    3:{ rewrite E. cbn [bind]. rewrite (get_ok 0) by lia. cbn [bind]. rewrite set_ok by lia.
        eexists. split; [reflexivity|]. rewrite length_upd. split; auto. intros j Hj. rewrite nth_upd by lia.
        destruct (Nat.eqb_spec j i) as [->|Hne].
        - rewrite (proj2 (Nat.ltb_lt i (S i))) by lia.
          replace (kmin + (S (Nat.min i k) - kmin))%nat with (S (Nat.min i k)) in HI by (unfold kmin; lia).
          unfold dbern, abern. fold term. rewrite ffall_falling.
          replace (ssum (S k) term) with (ssum (S (Nat.min i k)) term).
          2:{ replace (S k) with (S (Nat.min i k) + (k - Nat.min i k))%nat by lia. rewrite ssum_app. rewrite (ssum_zero (k - Nat.min i k)); [cbn; ring|].
              intros j' Hj'. unfold term, bshift. rewrite (proj2 (Nat.leb_gt _ i)) by lia. cbn. ring. }
          replace (ssum (S k) (aterm k p i x)) with (ssum (S (Nat.min i k)) (aterm k p i x)).
          2:{ replace (S k) with (S (Nat.min i k) + (k - Nat.min i k))%nat by lia. rewrite ssum_app. rewrite (ssum_zero (k - Nat.min i k)); [cbn; ring|].
              intros j' Hj'. unfold aterm, bshift. rewrite (proj2 (Nat.leb_gt _ i)) by lia. cbn. ring. }
          cbn [smul SOps_rnd SOps_R]. apply up with (2 * k + (K0 + S (Nat.min i k)) + 1)%nat; [unfold K0; lia|]. rewrite (Rmult_comm (nth i ev' 0)).
          apply ern. apply emul; auto.
        - rewrite HO by auto. specialize (HN j Hj).
          destruct (Nat.ltb_spec j i), (Nat.ltb_spec j (S i)); auto; lia. }
    + split; auto. split; auto. pose proof (HN i ltac:(lia)) as Hi0. rewrite (proj2 (Nat.ltb_ge i i)) in Hi0 by lia. rewrite Hi0.
      rewrite !ssum_zero; [apply Er_zero| |]; intros j Hj; unfold term, aterm, bshift, kmin in *;
        rewrite (proj2 (Nat.leb_le j i)) by lia; rewrite bernstein_gt by lia; cbn; ring.
    + intros j ev' Hj (HL' & HO & HI). cbv beta. unfold kmin in Hj. rewrite choose_ok by lia. cbn [bind].
      rewrite (get_ok 0) by lia. cbn [bind]. rewrite (get_ok 0) by lia. cbn [bind].
      rewrite set_ok by lia. eexists. split; [reflexivity|]. rewrite length_upd. split; auto. split.
      * intros j' Hne. rewrite nth_upd_other by auto. auto.
      * rewrite nth_upd_same by lia. cbn [ssum]. replace (K0 + S j)%nat with (K0 + j + 1)%nat by lia. cbn [sadd SOps_rnd SOps_R].
        apply ern. apply Er_add; [exact HI|]. apply up with K0; [lia|].
        assert (T : Er ((1 + u) ^ K0) (smul (SOps := ornd) (sofN (SOps := ornd) (binom k j)) (nth (i - j) basis 0)) (aterm k p i x j) (aterm k p i x j)).
        { unfold aterm, bshift. rewrite (proj2 (Nat.leb_le j i)) by lia. unfold K0. replace (2 * (p - k) + 5)%nat with (1 + (2 * (p - k) + 3) + 1)%nat by lia.
          cbn [smul SOps_rnd sofN]. apply ern. apply emul; [apply (ern 0); apply exact_pos; apply ofN_nonneg|]. apply Sr_Er; auto; [apply bernstein_nonneg'; auto|]. apply Nb. lia. }
        assert (ET : term j = if Nat.even (k + j) then aterm k p i x j else - aterm k p i x j).
        { unfold term, sgn, aterm. destruct (Nat.even (k + j)); cbn; ring. }
        rewrite ET, (Nat.add_comm j k), <- Nat.negb_even. destruct (Nat.even (k + j)); cbn [negb]; [exact T|]. apply Er_opp. exact T.
Qed.

(** ** Three runs side by side: rounded, exact, absolute values *)
Inductive all3 (P : R -> R -> R -> Prop) : list R -> list R -> list R -> Prop :=
| all3_nil : all3 P [] [] []
| all3_cons a b c l m n : P a b c -> all3 P l m n -> all3 P (a :: l) (b :: m) (c :: n).
Lemma all3_app (P : R -> R -> R -> Prop) l m n l' m' n' : all3 P l m n -> all3 P l' m' n' -> all3 P (l ++ l') (m ++ m') (n ++ n').
Proof. induction 1; cbn; auto. intros. constructor; auto. Qed.
Lemma all3_length (P : R -> R -> R -> Prop) l m n : all3 P l m n -> length m = length l /\ length n = length l.
Proof. induction 1; cbn; [auto|]. destruct IHall3. split; lia. Qed.
Lemma all3_nth (P : R -> R -> R -> Prop) l m n i : all3 P l m n -> (i < length l)%nat -> P (nth i l 0) (nth i m 0) (nth i n 0).
Proof. intros H. revert i. induction H; intros [|i] Hi; cbn in *; try lia; auto. apply IHall3. lia. Qed.
Lemma all3_intro (P : R -> R -> R -> Prop) l : forall m n, length m = length l -> length n = length l ->
  (forall i, (i < length l)%nat -> P (nth i l 0) (nth i m 0) (nth i n 0)) -> all3 P l m n.
Proof.
  induction l as [|a l IH]; intros [|b m] [|c n] H1 H2 H; try discriminate; [constructor|]. constructor.
  - apply (H 0%nat). cbn. lia.
  - apply IH; cbn in *; try lia. intros i Hi. apply (H (S i)). lia.
Qed.
Definition run3 (P : list R -> list R -> list R -> Prop) (a b c : res (list R)) : Prop :=
  exists x y z, a = Ok x /\ b = Ok y /\ c = Ok z /\ P x y z.
Lemma run3_for (P : list R -> list R -> list R -> Prop) f g h n : forall lo a b c,
  (forall i x y z, (lo <= i < lo + n)%nat -> P x y z -> run3 P (f i x) (g i y) (h i z)) ->
  P a b c -> run3 P (for_up lo n f a) (for_up lo n g b) (for_up lo n h c).
Proof.
  induction n; intros lo a b c H HP; cbn [for_up]; [exists a, b, c; auto|].
  destruct (H lo a b c ltac:(lia) HP) as (x & y & z & -> & -> & -> & HQ). cbn [bind]. apply IHn; auto. intros. apply H; auto. lia.
Qed.
Definition Ek (k : nat) (y x A : R) : Prop := Er ((1 + u) ^ k) y x A.
Lemma Ek_mul j k a b x y A B : Ek j a x A -> Ek k b y B -> Ek (j + k + 1) (rnd (a * b)) (x * y) (A * B).
Proof using Hu Hr. intros. apply ern. apply emul; auto. Qed.
Lemma Combine_er (g : nat -> nat) G (fs' fs fa : list (list R)) D :
  length fs' = D -> length fs = D -> length fa = D ->
  (forall i, (i < D)%nat -> all3 (Ek (g i)) (nth i fs' []) (nth i fs []) (nth i fa [])) ->
  forall k m r' r ra c' c ca, (k < D)%nat -> all3 (Ek G) r' r ra -> Ek m c' c ca -> (m + list_sum (map (fun i => g i + 1)%nat (seq 0 (S k))) <= G)%nat ->
  run3 (all3 (Ek G)) (RecursiveCombine_ (o := ornd) k fs' r' c') (RecursiveCombine_ (o := SOps_R) k fs r c) (RecursiveCombine_ (o := SOps_R) k fa ra ca).
Proof using Hu Hr.
  intros L1 L2 L3 HF. induction k; intros m r' r ra c' c ca Hk H3 Hc HG; cbn [RecursiveCombine_];
    rewrite !(get_ok []) by lia; cbn [bind];
    match goal with |- context [nth ?i fs' []] => pose proof (HF i Hk) as HFk; destruct (all3_length _ _ _ _ HFk) as (Lx & Ly) end;
    rewrite Lx, Ly; apply run3_for; auto; intros i x y z Hi HP; rewrite !(get_ok 0) by lia; cbn [bind];
    pose proof (all3_nth _ _ _ _ i HFk ltac:(lia)) as HN.
  - eexists; eexists; eexists. split; [reflexivity|]. split; [reflexivity|]. split; [reflexivity|]. apply all3_app; auto. constructor; [|constructor].
    apply (up (m + g 0%nat + 1)%nat); [simpl in HG; lia|]. apply Ek_mul; auto.
  - apply (IHk (m + g (S k) + 1)%nat); auto; [lia|apply Ek_mul; auto|].
    rewrite seq_S, map_app, list_sum_app in HG. simpl in HG. simpl. lia.
Qed.

(** ** The absolute values add up *)
Lemma sumR_scale n c (f : nat -> R) : ssum n (fun i => c * f i) = c * ssum n f.
Proof. exact (ssum_scale (T := R) n c f). Qed.
Lemma bshift_sum q k j x : (j <= k)%nat -> ssum (S (q + k)) (fun i => bshift (T := R) q i j x) = 1.
Proof.
  intros Hj. replace (S (q + k)) with (j + (S q + (k - j)))%nat by lia. rewrite ssum_app, ssum_app.
  rewrite (ssum_zero j). 2:{ intros i Hi. unfold bshift. rewrite (proj2 (Nat.leb_gt j i)) by lia. reflexivity. }
  rewrite (ssum_zero (k - j)). 2:{ intros i Hi. unfold bshift. rewrite (proj2 (Nat.leb_le _ _)) by lia. apply bernstein_gt. lia. }
  rewrite (ssum_ext (S q) _ (fun i => bernstein q i x)); [rewrite bernstein_sum; cbn; ring|].
  intros i Hi. unfold bshift. rewrite (proj2 (Nat.leb_le _ _)) by lia. f_equal. lia.
Qed.
Lemma ssum_bsum k n : ssum (T := R) (S n) (fun j => IZR (Z.of_N (binom k j))) = bsum k n.
Proof. induction n; [cbn [ssum bsum]; rewrite binom_n_0; cbn; ring|]. cbn [bsum]. rewrite <- IHn. reflexivity. Qed.
Lemma abern_sum k p x : ssum (S p) (fun i => abern k p i x) = falling p k * 2 ^ k.
Proof.
  destruct (le_lt_dec k p) as [Hk|Hk].
  2:{ assert (G0 : falling p k = 0) by (rewrite <- ffall_falling; exact (ffall_gt (T := R) (o := SOps_R) (F := SField_R) p k Hk)).
      rewrite ssum_zero; [rewrite G0; cbn; ring|]. intros i Hi. unfold abern. rewrite G0. cbn. ring. }
  unfold abern. rewrite (sumR_scale (S p) (falling p k)). f_equal. unfold aterm. rewrite ssum_swap.
  rewrite <- (bsum_pow 1 Nat.lt_0_1), <- ssum_bsum. apply ssum_ext. intros j Hj.
  rewrite (sumR_scale (S p) (IZR (Z.of_N (binom k j))) (fun i => bshift (p - k) i j x)).
  replace (S p) with (S (p - k + k)) by lia. rewrite bshift_sum by lia. cbn. ring.
Qed.
Lemma aterm_nonneg k p i x j : 0 <= x <= 1 -> 0 <= aterm k p i x j.
Proof. intros. apply Rmult_le_pos; [apply ofN_nonneg|apply bshift_nonneg; auto]. Qed.
Lemma fall_nonneg p k : 0 <= falling p k.
Proof. induction k; cbn [falling]; [lra|]. apply Rmult_le_pos; auto. apply pos_INR. Qed.
Lemma abern_nonneg k p i x : 0 <= x <= 1 -> 0 <= abern k p i x.
Proof. intros. apply Rmult_le_pos; [apply fall_nonneg|]. apply ssum_nonneg. intros. apply aterm_nonneg; auto. Qed.
Definition abern_list (k p : nat) (x : R) : list R := map (fun i => abern k p i x) (seq 0 (S p)).
Lemma tensor_sum (fs : list (list R)) : ssum (sizes fs) (tensor_at (o := SOps_R) fs) = fold_right (fun f a => ssum (length f) (fun i => nth i f 0) * a) 1 fs.
Proof.
  induction fs as [|f fs IH]; [cbn; ring|]. change (sizes (f :: fs)) with (length f * sizes fs)%nat. rewrite ssum_mul. cbn [fold_right].
  rewrite <- IH. destruct f as [|a f]; [cbn [length ssum]; rewrite ssum_zero; [change (0 = 0 * ssum (sizes fs) (tensor_at fs)); rewrite Rmult_0_l; reflexivity|reflexivity]|]. set (L := length (a :: f)).
  rewrite <- sumR_scale. apply ssum_ext. intros g Hg. rewrite Rmult_comm. rewrite <- sumR_scale. apply ssum_ext. intros j Hj.
  cbn [tensor_at]. fold L. replace (j + L * g)%nat with (j + g * L)%nat by lia. assert (L <> 0)%nat by (unfold L; cbn; lia).
  rewrite Nat.mod_add, Nat.div_add, Nat.mod_small, Nat.div_small by lia. rewrite Nat.add_0_l. apply Rmult_comm.
Qed.

Lemma sizes_abern ks degs xs : length ks = length degs -> length xs = length degs -> sizes (map3 abern_list ks degs xs) = n_coeffs degs.
Proof.
  unfold sizes, n_coeffs. revert ks xs; induction degs; intros [|k ks] [|x xs] H1 H2; try discriminate; auto.
  simpl in *. rewrite IHdegs by lia. now rewrite map_length, seq_length.
Qed.
Lemma scale_sum ks degs xs : length ks = length degs -> length xs = length degs ->
  ssum (n_coeffs degs) (tensor_at (o := SOps_R) (map3 abern_list ks degs xs)) = derivative_scale degs ks.
Proof.
  intros H1 H2. rewrite <- (sizes_abern ks degs xs) by auto. rewrite tensor_sum. revert ks xs H1 H2; induction degs as [|p degs IH]; intros [|k ks] [|x xs] H1 H2; try discriminate; auto.
  cbn [map3 fold_right derivative_scale]. rewrite IH by (simpl in *; lia). f_equal. unfold abern_list. rewrite map_length, seq_length, <- (abern_sum k p x).
  apply ssum_ext. intros i Hi. rewrite nth_map_seq by auto. reflexivity.
Qed.
Lemma tensor_nonneg fs : Forall (Forall (fun y => 0 <= y)) fs -> forall i, 0 <= tensor_at (o := SOps_R) fs i.
Proof.
  induction 1 as [|f fs Hf H IH]; intros i; cbn [tensor_at]; [cbn; lra|]. apply Rmult_le_pos; auto.
  destruct (le_lt_dec (length f) (i mod length f)) as [L|L]; [rewrite nth_overflow by auto; cbn; lra|]. eapply Forall_forall in Hf; [exact Hf|]. apply nth_In. auto.
Qed.
Lemma abern_lists_nonneg ks degs xs : Forall (fun x => 0 <= x <= 1) xs -> Forall (Forall (fun y => 0 <= y)) (map3 abern_list ks degs xs).
Proof.
  revert ks xs; induction degs as [|p degs IH]; intros [|k ks] [|x xs] H; cbn [map3]; try constructor; auto.
  - apply Forall_forall. intros y Hy. unfold abern_list in Hy. apply in_map_iff in Hy. destruct Hy as (i & <- & _). apply abern_nonneg. now inversion H.
  - apply IH. now inversion H.
Qed.

Lemma DBasis_er {V} MAXB (s : spline V) xs ks : (MAXB <= 68)%nat -> wf s -> length xs = length (degrees s) -> length ks = length (degrees s) ->
  Forall (fun p => (p < MAXB)%nat) (degrees s) -> Forall (fun x => 0 <= x <= 1) xs ->
  exists l', BasisFunctionsDerivatives (o := ornd) MAXB s xs ks = Ok l' /\
    all3 (Ek (derivative_basis_roundings (degrees s) ks)) l'
      (map (tensor_at (o := SOps_R) (map3 dbern_list ks (degrees s) xs)) (seq 0 (n_coeffs (degrees s))))
      (map (tensor_at (o := SOps_R) (map3 abern_list ks (degrees s) xs)) (seq 0 (n_coeffs (degrees s)))).
Proof using Hu Hu1 Hr.
  intros HB Hw HX HK Hp Hx. unfold BasisFunctionsDerivatives. set (D := length (degrees s)) in *.
  assert (C : exists fs', BasisFunctionsDerivativeContributions (o := ornd) MAXB s xs ks = Ok fs' /\ length fs' = D /\
    forall j, (j < D)%nat -> all3 (Ek (2 * nth j (degrees s) 0%nat + nth j ks 0%nat + 7)) (nth j fs' [])
       (dbern_list (nth j ks 0%nat) (nth j (degrees s) 0%nat) (nth j xs 0)) (abern_list (nth j ks 0%nat) (nth j (degrees s) 0%nat) (nth j xs 0))).
  { unfold BasisFunctionsDerivativeContributions. edestruct (for_up_inv (fun n (fs : list (list R)) => length fs = D /\
      forall j, (j < n)%nat -> all3 (Ek (2 * nth j (degrees s) 0%nat + nth j ks 0%nat + 7)) (nth j fs [])
       (dbern_list (nth j ks 0%nat) (nth j (degrees s) 0%nat) (nth j xs 0)) (abern_list (nth j ks 0%nat) (nth j (degrees s) 0%nat) (nth j xs 0)))) as (fs & E & HL & HN).
    3:{ exists fs. split; [exact E|]. split; auto. }
    - rewrite repeat_length. split; auto. intros; lia.
    - intros k fs Hk (HL & HN). fold D in Hk. rewrite (get_ok 0%nat) by (fold D; lia). cbn [bind]. rewrite (get_ok 0) by lia. cbn [bind]. rewrite (get_ok 0%nat) by lia. cbn [bind].
      destruct (BDeriv_er MAXB (nth k (degrees s) 0%nat) (nth k xs 0) (nth k ks 0%nat)) as (b & Eb & Lb & Nb); auto.
      { eapply Forall_forall in Hp; eauto. apply nth_In. fold D. lia. }
      { eapply Forall_forall in Hx; eauto. apply nth_In. lia. }
      rewrite Eb. cbn [bind]. rewrite set_ok by lia. eexists; split; [reflexivity|]. rewrite length_upd. split; auto.
      intros j Hj. rewrite nth_upd by lia. destruct (Nat.eqb_spec j k) as [->|]; [|apply HN; lia].
      apply all3_intro; [unfold dbern_list; rewrite map_length, seq_length; lia|unfold abern_list; rewrite map_length, seq_length; lia|].
      intros i Hi. unfold dbern_list, abern_list. rewrite !nth_map_seq by lia. apply Nb. lia. }
  destruct C as (fs' & EC & LC & NC). rewrite EC. cbn [bind].
  assert (D0 : (0 < D)%nat) by (unfold D; destruct Hw as (D0 & _); destruct (degrees s); [congruence|simpl; lia]).
  assert (Ld : length (map3 dbern_list ks (degrees s) xs) = D) by (rewrite length_map3; lia).
  assert (La : length (map3 abern_list ks (degrees s) xs) = D) by (rewrite length_map3; lia).
  pose proof (RecursiveCombine_ok (o := SOps_R) (F := SField_R) (map3 dbern_list ks (degrees s) xs)) as Ed.
  pose proof (RecursiveCombine_ok (o := SOps_R) (F := SField_R) (map3 abern_list ks (degrees s) xs)) as Ea.
  rewrite sizes_dbern in Ed by auto. rewrite sizes_abern in Ea by auto.
  specialize (Ed ltac:(intros Z; rewrite Z in Ld; simpl in Ld; lia)). specialize (Ea ltac:(intros Z; rewrite Z in La; simpl in La; lia)).
  destruct (Combine_er (fun i => 2 * nth i (degrees s) 0 + nth i ks 0 + 7)%nat (derivative_basis_roundings (degrees s) ks) fs'
    (map3 dbern_list ks (degrees s) xs) (map3 abern_list ks (degrees s) xs) D LC Ld La) with (k := (D - 1)%nat) (m := 0%nat) (r' := @nil R) (r := @nil R) (ra := @nil R) (c' := 1) (c := 1) (ca := 1)
    as (l' & ld & la & E1 & E2 & E3 & H3).
  - intros i Hi. rewrite !(nth_map3 _ _ _ _ i 0%nat 0%nat 0 []) by lia. apply NC. auto.
  - lia.
  - constructor.
  - apply exact_pos. lra.
  - unfold derivative_basis_roundings. replace (S (D - 1)) with D by lia. apply Nat.eq_le_incl. cbn [plus]. f_equal.
    unfold D in HK |- *. clear - HK. revert HK. generalize (degrees s). clear. intros degs. revert ks. induction degs as [|q degs IH]; intros ks H; destruct ks as [|k ks]; [reflexivity|discriminate H|discriminate H|].
    cbn [length seq map combine nth]. f_equal; [lia|]. rewrite <- seq_shift, map_map. apply IH. simpl in H. lia.
  - exists l'. unfold RecursiveCombine in *. rewrite LC. rewrite Ld in Ed. rewrite La in Ea. split; [exact E1|].
    change (s1 (SOps := SOps_R)) with 1 in Ed, Ea. rewrite E2 in Ed. rewrite E3 in Ea. injection Ed as <-. injection Ea as <-. exact H3.
Qed.
End Err.
