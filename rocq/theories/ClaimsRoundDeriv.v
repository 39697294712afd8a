(** Rounding errors of derivatives of basis functions and of EvaluateDerivative. *)
From Coq Require Import Arith Lia List ZArith NArith Bool Reals Lra.
From Verif Require Import Prelude Scalar Spec SpecSpline Sums Coord ModelBasis ModelSpline ModelRound SpecRound ProofIndex ProofBasis ProofEval ProofDeriv ProofDerivSpline ProofParam
  ProofRound ProofRaw ProofRoundEval ProofRoundOps ClaimsU ClaimsRoundOps SpecRoundDeriv ProofRoundDeriv.
Import ListNotations.
Local Open Scope R_scope.

Lemma total_all3 u k l' l la : all3 (Ek u k) l' l la -> total_error l' l <= ((1 + u) ^ k - 1) * ssum (length l') (fun i => nth i la 0).
Proof.
  intros H. unfold total_error. induction H as [|a b c l m n (H1 & _) H IH]; [cbn; lra|]. cbn [combine map fold_right length].
  rewrite ssum_first. cbn [nth]. change (sadd c (ssum (length l) (fun i => nth i n 0))) with (c + ssum (length l) (fun i => nth i n 0)). lra.
Qed.
Lemma sum_le n (f g : nat -> R) : (forall i, (i < n)%nat -> f i <= g i) -> ssum n f <= ssum n g.
Proof. intros H. induction n; cbn [ssum]; [lra|]. pose proof (H n ltac:(lia)). specialize (IHn ltac:(intros; apply H; lia)). cbn. lra. Qed.

Lemma c107_bernstein : forall p rnd MAXB q x k, (0 < p)%nat -> nearest p rnd -> (MAXB <= 68)%nat -> (q < MAXB)%nat -> 0 <= x <= 1 ->
  exists l l', BernsteinEvaluateDerivative MAXB q x k = Ok l /\ BernsteinEvaluateDerivative_rnd rnd MAXB q x k = Ok l' /\
    length l = S q /\ length l' = S q /\ total_error l' l <= gamma p (2 * q + k + 7) * (falling q k * 2 ^ k).
Proof.
  intros p rnd MAXB q x k Hp HR HB Hq Hx.
  destruct (BDeriv_er rnd (/ 2 ^ p) (unit_pos p) (nearest_error p rnd Hp HR) (unit_lt_1 p Hp) MAXB q x k HB Hq Hx) as (l' & E & L & H).
  eexists; exists l'. split; [apply (BernsteinEvaluateDerivative_ok MAXB HB q x k Hq)|]. split; [exact E|].
  split; [rewrite map_length, seq_length; reflexivity|]. split; auto. rewrite <- (abern_sum k q x).
  assert (A : all3 (Ek (/ 2 ^ p) (2 * q + k + 7)) l' (map (fun i => dbern k q i x) (seq 0 (S q))) (map (fun i => abern k q i x) (seq 0 (S q)))).
  { apply all3_intro; rewrite ?map_length, ?seq_length; auto. intros i Hi. rewrite !nth_map_seq by lia. apply H. lia. }
  eapply Rle_trans; [apply (total_all3 _ _ _ _ _ A)|]. unfold gamma. rewrite L. apply Req_le. f_equal. apply ssum_ext. intros i Hi. rewrite nth_map_seq by auto. reflexivity.
Qed.

Lemma c107_basis : forall p rnd V MAXB (s : spline V) xs orders, (0 < p)%nat -> nearest p rnd -> (MAXB <= 68)%nat ->
  wf s -> length xs = length (degrees s) -> length orders = length (degrees s) -> Forall (fun q => (q < MAXB)%nat) (degrees s) -> in_unit_box xs ->
  exists l l', BasisFunctionsDerivatives MAXB s xs orders = Ok l /\ BasisFunctionsDerivatives_rnd rnd MAXB s xs orders = Ok l' /\
    length l = n_coeffs (degrees s) /\ length l' = n_coeffs (degrees s) /\
    total_error l' l <= gamma p (derivative_basis_roundings (degrees s) orders) * derivative_scale (degrees s) orders.
Proof.
  intros p rnd V MAXB s xs ks Hp HR HB Hw HX HK Hd Hx.
  destruct (DBasis_er rnd (/ 2 ^ p) (unit_pos p) (nearest_error p rnd Hp HR) (unit_lt_1 p Hp) MAXB s xs ks HB Hw HX HK Hd Hx) as (l' & E & H).
  pose proof (all3_length _ _ _ _ H) as (L1 & L2). rewrite map_length, seq_length in L1, L2.
  eexists; exists l'. split; [|split; [exact E|]].
  - unfold BasisFunctionsDerivatives. rewrite (DerivContributions_ok MAXB HB s xs ks HX HK Hd). cbn [bind]. apply RecursiveCombine_ok.
    pose proof (wf_dim s Hw). destruct ks, (degrees s), xs; simpl in *; try lia; discriminate.
  - rewrite map_length, seq_length. rewrite sizes_dbern by auto. split; auto. split; auto.
    eapply Rle_trans; [apply (total_all3 _ _ _ _ _ H)|]. unfold gamma. rewrite <- L1. apply Req_le. f_equal.
    rewrite <- (scale_sum ks (degrees s) xs) by auto. apply ssum_ext. intros i Hi. rewrite nth_map_seq by auto. reflexivity.
Qed.

Section Eval.
Context (p : nat) (rnd : R -> R) (Hp : (0 < p)%nat) (HR : nearest p rnd).
Lemma accumulate_er K (l' l la : list R) (c : nat -> R) : forall n, (n <= length l')%nat -> all3 (Ek (/ 2 ^ p) K) l' l la ->
  Er ((1 + / 2 ^ p) ^ (K + n)) (vsum (ov := Vs rnd) n (fun i => rnd (nth i l' 0 * c i))) (vsum n (fun i => nth i l 0 * c i)) (vsum n (fun i => nth i la 0 * Rabs (c i))).
Proof using Hp HR.
  pose proof (unit_pos p) as Hu. pose proof (nearest_error p rnd Hp HR) as Hr.
  induction n as [|n IH]; intros Hn H; [apply Er_zero|].
  assert (T : Er ((1 + / 2 ^ p) ^ (K + 1)) (rnd (nth n l' 0 * c n)) (nth n l 0 * c n) (nth n la 0 * Rabs (c n))).
  { apply ern; auto. rewrite <- (Nat.add_0_r K). apply (emul (/ 2 ^ p) Hu K 0); [apply (all3_nth _ _ _ _ n H); lia|]. cbn [pow]. apply Er_exact. }
  cbn [vsum vadd VOps_scalar sadd SOps_rnd SOps_R]. destruct n as [|n].
  - cbn [vsum v0 VOps_scalar s0 SOps_rnd SOps_R]. rewrite (rnd_idem p rnd HR), !Rplus_0_l. exact T.
  - replace (K + S (S n))%nat with (K + S n + 1)%nat by lia. apply ern; auto. apply Er_add; [apply IH; auto; lia|]. eapply up; [auto| |exact T]. lia.
Qed.
Lemma deriv_err MAXB {V} (s : spline V) xs ks (c : nat -> R) B : (MAXB <= 68)%nat ->
  wf s -> length xs = length (degrees s) -> length ks = length (degrees s) -> Forall (fun q => (q < MAXB)%nat) (degrees s) -> in_unit_box xs ->
  (forall i, (i < n_coeffs (degrees s))%nat -> Rabs (c i) <= B) ->
  exists l' l, BasisFunctionsDerivatives_rnd rnd MAXB s xs ks = Ok l' /\ BasisFunctionsDerivatives MAXB s xs ks = Ok l /\
    length l' = n_coeffs (degrees s) /\ length l = n_coeffs (degrees s) /\
    Rabs (vsum (ov := Vs rnd) (n_coeffs (degrees s)) (fun i => rnd (nth i l' 0 * c i)) - vsum (n_coeffs (degrees s)) (fun i => nth i l 0 * c i)) <=
      gamma p (evaluate_derivative_roundings (degrees s) ks) * (derivative_scale (degrees s) ks * B).
Proof using Hp HR.
  intros HB Hw HX HK Hd Hx Hc.
  destruct (DBasis_er rnd (/ 2 ^ p) (unit_pos p) (nearest_error p rnd Hp HR) (unit_lt_1 p Hp) MAXB s xs ks HB Hw HX HK Hd Hx) as (l' & E & H).
  pose proof (all3_length _ _ _ _ H) as (L1 & L2). rewrite map_length, seq_length in L1, L2.
  exists l'; eexists. split; [exact E|]. split.
  { unfold BasisFunctionsDerivatives. rewrite (DerivContributions_ok MAXB HB s xs ks HX HK Hd). cbn [bind]. apply RecursiveCombine_ok.
    pose proof (wf_dim s Hw). destruct ks, (degrees s), xs; simpl in *; try lia; discriminate. }
  split; [lia|]. rewrite map_length, seq_length. rewrite sizes_dbern by auto. split; auto.
  destruct (accumulate_er _ _ _ _ c (n_coeffs (degrees s)) (Nat.eq_le_incl _ _ L1) H) as (Q & _). fold (gamma p (derivative_basis_roundings (degrees s) ks + n_coeffs (degrees s))) in Q.
  eapply Rle_trans; [exact Q|]. apply Rmult_le_compat_l; [apply (gamma_pos p); auto|].
  rewrite <- (scale_sum ks (degrees s) xs) by auto. rewrite <- ssum_vsum, Rmult_comm, <- sumR_scale. apply sum_le. intros i Hi. rewrite nth_map_seq by auto. rewrite Rmult_comm.
  apply Rmult_le_compat_r; auto. apply tensor_nonneg. apply abern_lists_nonneg. exact Hx.
Qed.
End Eval.

Lemma c107_evaluate : forall p rnd MAXB d (s : spline (point R d)) xs orders, (0 < p)%nat -> nearest p rnd -> (MAXB <= 68)%nat ->
  wf s -> length xs = length (degrees s) -> length orders = length (degrees s) -> Forall (fun q => (q < MAXB)%nat) (degrees s) -> in_unit_box xs ->
  exists e v, EvaluateDerivative_rnd rnd MAXB s xs orders = Ok e /\ EvaluateDerivative MAXB s xs orders = Ok v /\
    forall c B, (c < d)%nat -> coord_bound s c B ->
      Rabs (coord d e c - coord d v c) <= gamma p (evaluate_derivative_roundings (degrees s) orders) * (derivative_scale (degrees s) orders * B).
Proof.
  intros p rnd MAXB d s xs ks Hp HR HB Hw HX HK Hd Hx. pose proof Hw as (_ & _ & _ & Lc).
  destruct (deriv_err p rnd Hp HR MAXB s xs ks (fun _ => 0) 0 HB Hw HX HK Hd Hx) as (l' & l & E' & E & L' & L & _); [intros; rewrite Rabs_R0; lra|].
  unfold EvaluateDerivative_rnd, EvaluateDerivative. unfold BasisFunctionsDerivatives_rnd in E'. rewrite E', E. cbn [bind].
  rewrite !combine_points_any by lia. eexists; eexists. split; [reflexivity|]. split; [reflexivity|]. intros c B Hc HBd.
  destruct (deriv_err p rnd Hp HR MAXB s xs ks (fun i => coord d (nth i (control_points s) v0) c) B HB Hw HX HK Hd Hx) as (l2' & l2 & E2' & E2 & _ & _ & Q); [exact HBd|].
  unfold BasisFunctionsDerivatives_rnd in E2'. assert (l2' = l') by congruence. assert (l2 = l) by congruence. subst l2 l2'. rewrite L', L.
  rewrite coord_vsum_rnd, coord_vsum by auto.
  eapply Rle_trans; [|exact Q]. apply Req_le. apply f_equal. apply f_equal2.
  - apply vsum_ext_any. intros i Hi. apply coord_scale_rnd; auto.
  - rewrite <- ssum_vsum. apply ssum_ext. intros i Hi. rewrite coord_scale by auto. reflexivity.
Qed.

Lemma c107_evaluate_scalar : forall p rnd MAXB (s : spline R) xs orders B, (0 < p)%nat -> nearest p rnd -> (MAXB <= 68)%nat ->
  wf s -> length xs = length (degrees s) -> length orders = length (degrees s) -> Forall (fun q => (q < MAXB)%nat) (degrees s) -> in_unit_box xs ->
  coeff_bound s B ->
  exists e v, EvaluateDerivative_rnd_s rnd MAXB s xs orders = Ok e /\ EvaluateDerivative MAXB s xs orders = Ok v /\
    Rabs (e - v) <= gamma p (evaluate_derivative_roundings (degrees s) orders) * (derivative_scale (degrees s) orders * B).
Proof.
  intros p rnd MAXB s xs ks B Hp HR HB Hw HX HK Hd Hx HBd. pose proof Hw as (_ & _ & _ & Lc).
  destruct (deriv_err p rnd Hp HR MAXB s xs ks (fun i => nth i (control_points s) 0) B HB Hw HX HK Hd Hx) as (l' & l & E' & E & L' & L & Q); [exact HBd|].
  unfold EvaluateDerivative_rnd_s, EvaluateDerivative. unfold BasisFunctionsDerivatives_rnd in E'. rewrite E', E. cbn [bind].
  rewrite !combine_points_any by lia. eexists; eexists. split; [reflexivity|]. split; [reflexivity|]. rewrite L', L. exact Q.
Qed.

Section Mag.
Context (p : nat) (rnd : R -> R) (Hp : (0 < p)%nat) (HR : nearest p rnd).
Context {V : Type} {ov : VOps R V} {M : VMod R V} (pr : V -> R).
Context (pr_add : forall a b, pr (vadd a b) = pr a + pr b) (pr_scale : forall c a, pr (vscale c a) = c * pr a).
Lemma derivative_mag MAXB (s r0 : spline V) ks B : (MAXB <= 68)%nat -> wf s -> length ks = length (degrees s) -> Forall2 le ks (degrees s) ->
  Forall (fun k => (k < MAXB)%nat) ks -> (forall i, (i < n_coeffs (degrees s))%nat -> Rabs (pr (nth i (control_points s) v0)) <= B) ->
  DerivativeWRT MAXB s ks = Ok r0 -> forall i, (i < n_coeffs (degrees r0))%nat -> Rabs (pr (nth i (control_points r0) v0)) <= derivative_scale (degrees s) ks * B.
Proof using Hp HR M pr_add pr_scale.
  intros HMB Hw HL Hle HM HB E0.
  destruct (DerivativeWRT_raw (ov := ov) MAXB HMB s ks Hw HL Hle HM) as (r & E & Wr0 & Dr0 & N0). rewrite E in E0. injection E0 as <-.
  assert (P0 : 0 <= B) by (eapply Rle_trans; [apply Rabs_pos|apply (HB 0%nat); apply n_coeffs_pos]).
  assert (Z : pr v0 = 0).
  { assert (A := pr_add (v0 (VOps := ov)) (v0 (VOps := ov))). rewrite (vm_0 (VMod := M)) in A. lra. }
  assert (HG : forall mi, Rabs (pr (nth (position (degrees s) mi) (control_points s) v0)) <= B).
  { intros mi. destruct (Nat.lt_ge_cases (position (degrees s) mi) (n_coeffs (degrees s))) as [Hi|Hi].
    - apply HB; auto.
    - rewrite nth_overflow by (rewrite (proj2 (proj2 (proj2 Hw))); auto). rewrite Z, Rabs_R0. auto. }
  intros i Hi. rewrite Dr0 in Hi. set (nd := map2 Nat.sub (degrees s) ks) in *.
  rewrite <- (position_index_of nd i Hi). rewrite N0 by (apply index_of_valid; auto). rewrite (pr_rGiter pr pr_add pr_scale).
  destruct (rGiter_err p rnd Hp HR ks (degrees s) (fun mi => pr (nth (position (degrees s) mi) (control_points s) v0)) B (length (degrees s))
      HL (le_n _) HG (index_of nd i)) as (_ & K).
  rewrite !firstn_all in K. replace (firstn (length (degrees s)) ks) with ks in K by (rewrite <- HL; symmetry; apply firstn_all). exact K.
Qed.
End Mag.

Lemma gamma_twice p j k a S B y : 0 <= S -> 0 <= gamma p j -> 0 <= gamma p k ->
  Rabs a <= gamma p j * S -> B <= (1 + gamma p j) * S -> Rabs y <= gamma p k * B -> Rabs (y + a) <= gamma p (j + k) * S.
Proof.
  intros HS G1 G2 H1 H2 H3. eapply Rle_trans; [apply Rabs_triang|].
  assert (E : gamma p (j + k) = gamma p j + gamma p k * (1 + gamma p j)) by (unfold gamma; rewrite pow_add; ring).
  rewrite E. assert (gamma p k * B <= gamma p k * ((1 + gamma p j) * S)) by (apply Rmult_le_compat_l; auto). lra.
Qed.

Lemma orders_small MAXB ks degs : Forall2 le ks degs -> Forall (fun q => (q < MAXB)%nat) degs -> Forall (fun q => (q < MAXB)%nat) ks.
Proof. induction 1; intros F; auto. inversion F; subst. constructor; auto. lia. Qed.

Lemma c107_agree : forall p rnd MAXB d (s : spline (point R d)) xs orders, (0 < p)%nat -> nearest p rnd -> (MAXB <= 68)%nat ->
  wf s -> length xs = length (degrees s) -> length orders = length (degrees s) -> Forall2 le orders (degrees s) -> Forall (fun q => (q < MAXB)%nat) (degrees s) -> in_unit_box xs ->
  exists e r a, EvaluateDerivative_rnd rnd MAXB s xs orders = Ok e /\ DerivativeWRT_rnd rnd MAXB s orders = Ok r /\ Evaluate_rnd rnd r xs = Ok a /\
    forall c B, (c < d)%nat -> coord_bound s c B ->
      Rabs (coord d e c - coord d a c) <=
        (gamma p (evaluate_derivative_roundings (degrees s) orders) + gamma p (derivative_roundings orders + casteljau_roundings (degrees r))) *
        (derivative_scale (degrees s) orders * B).
Proof.
  intros p rnd MAXB d s xs ks Hp HR HB Hw HX HK Hle Hd Hx. pose proof (orders_small _ _ _ Hle Hd) as Hk.
  destruct (c107_evaluate p rnd MAXB d s xs ks Hp HR HB Hw HX HK Hd Hx) as (e & v & E & Ev & Q1).
  destruct (c83_derivative p rnd MAXB d s ks Hp HR HB Hw HK Hle Hk) as (r & r0 & Er' & Er0 & Wr & Wr0 & Dr & Dr0 & Q2).
  assert (HXr : length xs = length (degrees r)) by (rewrite Dr, length_map2; auto).
  destruct (c71_evaluate p rnd d r xs Hp HR Wr HXr Hx) as (a & Ea & Q3).
  exists e, r, a. do 3 (split; [assumption|]). intros c B Hc HBd. specialize (Q1 c B Hc HBd). destruct (Q2 c B Hc HBd) as (Q2a & Q2b). specialize (Q2b xs HX Hx). specialize (Q3 c Hc).
  assert (V0 : value_at r0 xs = v).
  { rewrite (EvaluateDerivative_ok MAXB HB s xs ks Hw HX HK Hd) in Ev. injection Ev as <-.
    destruct (DerivativeWRT_ok MAXB HB s ks Hw HK Hle Hk) as (r1 & E1 & _ & _ & F). rewrite E1 in Er0. injection Er0 as <-. apply F. auto. }
  rewrite V0 in Q2b.
  assert (Mg : forall i, (i < n_coeffs (degrees r0))%nat -> Rabs (coord d (nth i (control_points r0) v0) c) <= derivative_scale (degrees s) ks * B).
  { apply (derivative_mag p rnd Hp HR (fun q => coord d q c)) with (MAXB := MAXB); auto; [intros; rewrite coord_add; auto|intros; rewrite coord_scale; auto]. }
  rewrite Dr0 in Mg. set (S := derivative_scale (degrees s) ks * B) in *.
  assert (HS : 0 <= S) by (eapply Rle_trans; [apply Rabs_pos|apply (Mg 0%nat); apply n_coeffs_pos]).
  pose proof (gamma_pos p Hp) as G.
  assert (Mr : magnitude r xs c <= (1 + gamma p (derivative_roundings ks)) * S).
  { apply c71_magnitude; auto. intros i Hi. specialize (Q2a i Hi). specialize (Mg i Hi).
    replace (coord d (nth i (control_points r) v0) c) with ((coord d (nth i (control_points r) v0) c - coord d (nth i (control_points r0) v0) c) + coord d (nth i (control_points r0) v0) c) by ring.
    eapply Rle_trans; [apply Rabs_triang|]. lra. }
  pose proof (gamma_twice p _ _ _ S _ _ HS (G _) (G _) Q2b Mr Q3) as Q4.
  replace (coord d e c - coord d a c) with ((coord d e c - coord d v c) - ((coord d a c - coord d (value_at r xs) c) + (coord d (value_at r xs) c - coord d v c))) by ring.
  unfold Rminus at 1. eapply Rle_trans; [apply Rabs_triang|]. rewrite Rabs_Ropp. lra.
Qed.
