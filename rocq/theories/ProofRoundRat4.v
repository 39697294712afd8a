(** Rounding errors of compositions with a rational inner spline. *)
From Coq Require Import Arith Lia List ZArith NArith Bool Reals Lra Psatz.
From Verif Require Import Prelude Scalar Spec SpecSpline SpecRational Sums Order Coord ModelBasis ModelPoint ModelSpline ModelRational
  ModelRound ModelRoundMul SpecRound SpecRoundMul ProofIndex ProofBasis ProofEval ProofElevate ProofUnique ProofArith ProofSplit ProofMul ProofCompose ProofHull ProofCube
  ProofRational ProofRational2 ProofRational3 ProofCasteljau ProofRaw ProofRound ProofRoundEval ProofRoundOps ProofRawMul ProofRoundMul ProofRoundCompose
  ClaimsB ClaimsE ClaimsU ClaimsX ClaimsRoundOps ClaimsRoundMul ModelRoundRat SpecRoundRat ProofRoundRat ProofRoundRat2 ProofRoundRat3 SpecUnit.
Import ListNotations.
Local Open Scope R_scope.

(** Values on the unit box determine the coefficients. *)
Lemma bernstein_box p (c : nat -> R) :
  (forall x, 0 <= x <= 1 -> vsum (V := R) (S p) (fun j => vscale (bernstein p j x) (c j)) = 0) -> forall j, (j <= p)%nat -> c j = 0.
Proof.
  intros H j Hj.
  assert (Hz : Forall (fun v : R => v = v0) (map (fun j => vscale (sofN (binom p j) : R) (c j)) (seq 0 (S p)))).
  { apply (peval_zero (S p) _ 0%nat); [rewrite map_length, seq_length; lia|].
    intros m _. rewrite peval_map_seq.
    set (q := sofnat (S m) : R). assert (Hq : q <> s0) by (apply sofnat_neq0; lia).
    assert (Q : q = INR m + 1). { unfold q, sofnat. cbn [sofN SOps_R]. rewrite <- S_INR, INR_IZR_INZ. f_equal; try lia. }
    assert (Qm : sofnat m = INR m). { unfold sofnat. cbn [sofN SOps_R]. rewrite INR_IZR_INZ. f_equal; try lia. }
    pose proof (pos_INR m) as P.
    assert (X : 0 <= sofnat m * (1 / q) <= 1).
    { rewrite Qm, Q. split; [apply Rmult_le_pos; auto; apply Rlt_le, Rdiv_lt_0_compat; lra|].
      apply (Rmult_le_reg_r (INR m + 1)); [lra|]. field_simplify; lra. }
    apply (vscale_cancel (spow (sdiv s1 q) p)); [apply spow_neq0|].
    - intros E. cbn [sdiv SOps_R s1 s0] in E. rewrite Q in E. assert (0 < 1 / (INR m + 1)) by (apply Rdiv_lt_0_compat; lra). lra.
    - rewrite <- vsum_scale. change (@v0 R R _) with 0. rewrite <- (H _ X).
      apply vsum_ext. intros i Hi. rewrite Nat.add_0_l, <- !vm_mul. f_equal.
      unfold bernstein.
      replace (ssub s1 (sofnat m * (1 / q))) with (1 / q).
      2:{ cbn [ssub s1 SOps_R]. rewrite Qm, Q. field. lra. }
      change (sofnat m * (1 / q)) with (smul (sofnat m) (1 / q)). change (sdiv s1 q) with (1 / q).
      rewrite spow_mul_base. replace p with (i + (p - i))%nat at 1 by lia. rewrite spow_add. cbn [smul SOps_R]. ring. }
  rewrite Forall_forall in Hz. change (c j = v0 :> R). apply (vscale_cancel (V := R) (sofN (binom p j) : R)).
  - apply sbinom_neq0. auto.
  - apply Hz. apply in_map_iff. exists j. split; auto. apply in_seq. lia.
Qed.
Lemma bezier_box degs : forall (f : nat -> R),
  (forall xs, length xs = length degs -> in_unit_box xs -> bezier degs xs f = 0) -> forall i, (i < n_coeffs degs)%nat -> f i = 0.
Proof.
  induction degs as [|p degs IH]; intros f H i Hi.
  - unfold n_coeffs, prod in Hi. simpl in Hi. replace i with 0%nat by lia. apply (H []); [reflexivity|]. constructor.
  - rewrite n_coeffs_cons in Hi.
    pose proof (Nat.div_mod i (S p) ltac:(lia)) as E.
    pose proof (Nat.mod_upper_bound i (S p) ltac:(lia)) as Hm.
    assert (Hg : (i / S p < n_coeffs degs)%nat) by (apply Nat.div_lt_upper_bound; lia).
    rewrite E. rewrite Nat.add_comm.
    apply (IH (fun g => f (i mod S p + S p * g)%nat)); auto.
    intros xs HX HU.
    apply (bernstein_box p (fun j => bezier degs xs (fun g => f (j + S p * g)%nat))); [|lia].
    intros x Hx. apply (H (x :: xs)); [simpl; lia|]. constructor; auto.
Qed.
Lemma unique_box (s s' : spline R) : wf s -> wf s' -> degrees s' = degrees s ->
  (forall xs, length xs = length (degrees s) -> in_unit_box xs -> value_at s xs = value_at s' xs) ->
  forall i, (i < n_coeffs (degrees s))%nat -> nth i (control_points s) 0 = nth i (control_points s') 0.
Proof.
  intros W W' D H i Hi. apply Rminus_diag_uniq.
  apply (bezier_box (degrees s) (fun i => nth i (control_points s) 0 - nth i (control_points s') 0)); auto.
  intros xs HX HU. specialize (H xs HX HU). unfold value_at in H. rewrite D in H.
  pose proof (bezier_sub (V := R) (degrees s) xs (fun i => nth i (control_points s) 0) (fun i => nth i (control_points s') 0)) as E.
  cbn [vsub VOps_scalar ssub SOps_R] in E. rewrite E. change (@v0 R R _) with 0 in H. lra.
Qed.

Section Gen.
Context (p : nat) (rnd : R -> R) (Hp : (0 < p)%nat) (HR : nearest p rnd).
Let u := / 2 ^ p.
Let Hu : 0 <= u := unit_pos p.
Let Hu1 : u < 1 := unit_lt_1 p Hp.
Let Hr : forall x, Rabs (rnd x - x) <= u * Rabs x := nearest_error p rnd Hp HR.
Notation ornd := (SOps_rnd rnd).
Notation Vs := (VOps_scalar R (o := ornd)).
Notation VR := (VOps_scalar R (o := SOps_R)).
Context (MAXB : nat) (HB : (MAXB <= 68)%nat).

(** ** Powers of a positive spline *)
Section Power.
Context (w : spline R) (Ww : wf w) (Pw : positive w) (S0 : nat) (HF : Forall (fun q => S0 * q < MAXB)%nat (degrees w)).
Let E := (5 * length (degrees w) + 2 + n_coeffs (map (Nat.mul S0) (degrees w)))%nat.
Notation rel := (rel p (degrees w)).
Lemma pos_mul a b c m n : wf a -> wf b -> degrees a = map (Nat.mul m) (degrees w) -> degrees b = map (Nat.mul n) (degrees w) -> (m + n <= S0)%nat ->
  positive a -> positive b -> spline_mul_ss MAXB a b = Ok c -> positive c.
Proof using Hp HR HB HF.
  intros Wa Wb Da Db L Pa Pb Ec.
  destruct (mulw p rnd Hp HR MAXB HB a b Wa Wb) as (c' & c0 & _ & E0 & _ & _ & _ & _ & C & _); auto.
  { rewrite Da, Db, !map_length. reflexivity. }
  { rewrite Da, Db, map2_add_mul', Forall_map. eapply Forall_impl; [|exact HF]. intros q Hq. cbv beta in *. nia. }
  rewrite Ec in E0. injection E0 as <-. intros i Hi. apply C. auto.
Qed.
Lemma power_rel : forall fuel n, (n < fuel)%nat -> (n <= S0)%nat ->
  exists r' r, RaisePower_rec (o := ornd) MAXB fuel w n = Ok r' /\ RaisePower_rec MAXB fuel w n = Ok r /\ rel ((n - 1) * E) n r' r /\ positive r.
Proof using Hp HR HB Ww Pw HF.
  assert (HD : degrees w <> []) by apply Ww.
  assert (R1 : rel 0 1 w w).
  { split; [|symmetry; apply map_mul_1']. split; [auto|]. split; [auto|]. split; [reflexivity|]. intros i. apply (Sr'_x p rnd Hp HR). apply (nth_nonneg p Hp MAXB HB); auto. }
  induction fuel as [|fuel IH]; intros n Hn HN; [lia|]. cbn [RaisePower_rec].
  destruct (Nat.eqb_spec n 0) as [->|H0].
  { destruct (rel_one p rnd Hp HR MAXB HB (degrees w) HD S0 HF) as (one & E1 & E2 & R0). exists one, one. split; [exact E1|]. split; [exact E2|].
    split; [apply (rel_le p rnd Hp HR (degrees w) 0); auto; lia|].
    assert (HN0 : repeat 0%nat (length (degrees w)) <> []) by (destruct (degrees w); [congruence|simpl; congruence]).
    unfold const_one in E2. rewrite Spline_deg_points_ok in E2 by (auto; now rewrite (n_coeffs_0 MAXB HB)). injection E2 as <-.
    intros i Hi. cbn [mk degrees control_points] in *. rewrite (n_coeffs_0 MAXB HB) in Hi. replace i with 0%nat by lia. cbn. lra. }
  destruct (Nat.eqb_spec n 1) as [->|H1].
  { exists w, w. do 2 (split; [reflexivity|]). split; [exact R1|exact Pw]. }
  set (h := (n / 2)%nat).
  assert (Hh : (n = 2 * h + n mod 2)%nat) by (apply Nat.div_mod; lia).
  assert (Hm : (n mod 2 < 2)%nat) by (apply Nat.mod_upper_bound; lia).
  destruct (IH h) as (r' & r & E' & E0 & Rr & Pr); [lia|lia|].
  rewrite E', E0. cbn [bind].
  destruct (rel_mul p rnd Hp HR MAXB HB (degrees w) S0 HF _ _ _ _ _ _ _ _ Rr Rr) as (q' & q & Eq' & Eq & Rq); [lia|].
  assert (Pq : positive q). { destruct Rr as ((_ & Wr & _) & Dr). apply (pos_mul r r q h h); auto. lia. }
  rewrite Eq', Eq. cbn [bind].
  destruct (Nat.eqb_spec (n mod 2) 0) as [E1|E1].
  - exists q', q. do 2 (split; [reflexivity|]). split; auto. replace n with (h + h)%nat at 2 by lia.
    eapply (rel_le p rnd Hp HR); [|exact Rq]. fold E. nia.
  - destruct (rel_mul p rnd Hp HR MAXB HB (degrees w) S0 HF _ _ _ _ _ _ _ _ Rq R1) as (t' & t & Et' & Et & Rt); [lia|].
    exists t', t. split; [exact Et'|]. split; [exact Et|]. split.
    + replace n with (h + h + 1)%nat at 2 by lia. eapply (rel_le p rnd Hp HR); [|exact Rt]. fold E. assert (Nh : (n - 1 = 2 * h)%nat) by lia. assert (Eh : (h = S (h - 1))%nat) by lia. rewrite Nh. generalize E. intros e. rewrite Eh at 3. generalize (h - 1)%nat. intros. lia.
    + destruct Rq as ((_ & Wq & _) & Dq). apply (pos_mul q w t (h + h) 1); auto; [rewrite map_mul_1'; reflexivity|lia].
Qed.
End Power.

Section Inner.
Context (d : nat) (inner : rspline R (point R d)) (Hi : rwf inner) (HC : in_cube_weighted inner).
Context (Hsz : (Z.of_nat (n_coeffs (rdegrees inner)) < 2 ^ 31)%Z).
Context (fuel : nat) (Hfuel : (list_max (rdegrees inner) + 1 < fuel)%nat).
Notation D := (rdegrees inner).
Notation win := (weight_function inner).

Lemma win_pos : positive win.
Proof using HC Hi. intros i H. destruct Hi as (_ & _ & E). apply HC. unfold rdegrees. rewrite <- E. exact H. Qed.
Lemma inverse_relR k : (k < d)%nat -> exists c ic' ic, R_ExtractDimension (o := SOps_R) inner k = Ok c /\
  inverse_rational (o := ornd) fuel win c = Ok ic' /\ inverse_rational (o := SOps_R) fuel win c = Ok ic /\
  rel p D 0 1 c c /\ rel p D 1 1 ic' ic.
Proof using Hp HR HB Hi HC Hfuel.
  intros Hk. pose proof Hi as (Wu & Ww & Dw). unfold R_ExtractDimension.
  destruct (ExtractDimension_ok (weighted_spline inner) k Wu Hk) as (c & Ec & Wc & Dc & Cc).
  assert (Lu : length (control_points (weighted_spline inner)) = n_coeffs D) by apply Wu.
  assert (Lw : length (control_points win) = n_coeffs D) by (rewrite (proj2 (proj2 (proj2 Ww))), Dw; reflexivity).
  assert (Lc : length (control_points c) = n_coeffs D) by (rewrite Cc, map_length; exact Lu).
  assert (CC : forall i, (i < n_coeffs D)%nat -> 0 <= nth i (control_points c) 0 <= nth i (control_points win) 0).
  { intros i Hx. rewrite Cc. rewrite (nth_indep _ 0 (coord d v0 k)) by (rewrite map_length; lia). rewrite (map_nth (fun q => coord d q k)). apply HC; auto. }
  destruct (add_raw (o := ornd) (ov := Vs) fuel win c Ww Wc) as (_ & _ & E1 & _); [congruence|lia|].
  destruct (add_raw (o := SOps_R) (ov := VR) fuel win c Ww Wc) as (_ & _ & E2 & _); [congruence|lia|].
  exists c, (combined_with (vsub (VOps := Vs)) win c), (combined_with (vsub (VOps := VR)) win c).
  split; [exact Ec|]. split; [exact E1|]. split; [exact E2|].
  assert (Dc1 : degrees c = map (Nat.mul 1) D) by (rewrite Dc; symmetry; apply map_mul_1'). split.
  - split; [|exact Dc1]. split; [auto|]. split; [auto|]. split; [reflexivity|]. intros i. apply (Sr'_x p rnd Hp HR).
    destruct (lt_dec i (n_coeffs D)); [apply CC; auto|rewrite nth_overflow by lia; lra].
  - assert (Wf : forall op : R -> R -> R, wf (combined_with op win c)).
    { intros op. apply with_cps_wf; auto. rewrite length_map2 by congruence; apply Ww. }
    split; [|cbn [combined_with with_cps degrees]; rewrite Dw; symmetry; apply map_mul_1'].
    split; [apply Wf|]. split; [apply Wf|]. split; [reflexivity|]. intros i. cbn [combined_with with_cps control_points].
    destruct (lt_dec i (n_coeffs D)) as [Hx|Hx].
    2:{ rewrite !nth_overflow by (rewrite length_map2; lia). apply (Sr'_x p rnd Hp HR). lra. }
    rewrite !(nth_map2 _ _ _ _ 0 0 0) by lia. specialize (CC i Hx). set (x := nth i (control_points c) 0) in *. set (y := nth i (control_points win) 0) in *.
    cbn [vsub VOps_scalar ssub SOps_rnd SOps_R]. split; [lra|]. specialize (Hr (y - x)). rewrite (Rabs_right (y - x)) in Hr by lra.
    unfold ProofRoundEval.Sr. rewrite !pow_1. fold u. unfold Rabs in Hr.
    assert (U0 : 0 <= u * (y - x)) by (apply Rmult_le_pos; lra). destruct (Rcase_abs _); lra.
Qed.

(** The splines multiplied with the outer control points. *)
Section Outer.
Context {V : Type} (outer : spline V) (Ho : wf outer) (Hdim : length (degrees outer) = d).
Context (HF : Forall (fun q => list_sum (degrees outer) * q < MAXB)%nat D).
Context (HM : Forall (fun q => q < MAXB)%nat (degrees outer)).
Notation S0 := (list_sum (degrees outer)).
Notation K := (sensitivity_roundings (degrees outer) D).
Notation n := (n_coeffs (degrees outer)).

Lemma numerators : exists T' T0 : nat -> spline R, (forall i, (i < n)%nat -> rel p D K S0 (T' i) (T0 i)) /\
  ComposeNumeratorSensitivity_R (o := ornd) MAXB fuel outer inner = Ok (map T' (seq 0 n)) /\
  ComposeNumeratorSensitivity_R (o := SOps_R) MAXB fuel outer inner = Ok (map T0 (seq 0 n)) /\
  (forall ovr : VOps R V, exists r', ComposeNumerator_R (o := ornd) MAXB fuel outer inner = Ok r' /\ wf r' /\ degrees r' = map (Nat.mul S0) D /\
    forall j, (j < n_coeffs (degrees r'))%nat -> nth j (control_points r') (v0 (VOps := ovr)) =
      vsum (ov := ovr) n (fun i => vscale (VOps := ovr) (nth j (control_points (T' i)) 0) (nth i (control_points outer) (v0 (VOps := ovr))))) /\
  (forall ov : VOps R V, exists r, ComposeNumerator_R (o := SOps_R) MAXB fuel outer inner = Ok r /\ wf r /\ degrees r = map (Nat.mul S0) D /\
    forall j, (j < n_coeffs (degrees r))%nat -> nth j (control_points r) (v0 (VOps := ov)) =
      vsum (ov := ov) n (fun i => vscale (VOps := ov) (nth j (control_points (T0 i)) 0) (nth i (control_points outer) (v0 (VOps := ov))))).
Proof using Hp HR HB Hi HC Hfuel Ho Hdim HF HM.
  assert (HD : D <> []) by apply Hi.
  destruct (all_basis_rel p rnd Hp HR MAXB HB D HD S0 HF outer (R_ExtractDimension (o := SOps_R) inner) (inverse_rational (o := ornd) fuel win) (inverse_rational (o := SOps_R) fuel win) Ho) as (bs' & bs & E' & E & L' & L & HN).
  { intros k Hk. apply inverse_relR. rewrite <- Hdim. exact Hk. }
  { apply Forall_forall. intros q Hq. rewrite Forall_forall in HM. split; auto.
    clear - Hq. induction (degrees outer); [destruct Hq|]. destruct Hq as [->|Hq]; [|specialize (IHl Hq)]; unfold list_sum in *; cbn [fold_right]; lia. }
  assert (HS : nsum (length (degrees outer)) (fun k => nth k (degrees outer) 0%nat) = S0).
  { rewrite <- sum_degrees_nsum. apply (sum_degrees_list p Hp MAXB HB outer). }
  assert (HT : forall i, exists t' t, tensor_spline (o := ornd) MAXB bs' (index_of (degrees outer) i) (length (degrees outer)) = Ok t' /\
    tensor_spline MAXB bs (index_of (degrees outer) i) (length (degrees outer)) = Ok t /\ rel p D K S0 t' t).
  { intros i. destruct (tensor_rel p rnd Hp HR MAXB HB D HD S0 HF bs' bs (index_of (degrees outer) i) (length (degrees outer)) (fun k => nth k (degrees outer) 0%nat)) as (t' & t & Et' & Et & Ht); auto.
    - apply wf_dim; auto.
    - apply length_index_of.
    - lia.
    - intros k Hk. apply HN; auto. apply valid_nth. apply index_of_valid.
    - exists t', t. split; auto. split; auto. rewrite HS in Ht. exact Ht. }
  pose (T' := fun i => match tensor_spline (o := ornd) MAXB bs' (index_of (degrees outer) i) (length (degrees outer)) with Ok t => t | _ => mk [] [] end : spline R).
  pose (T0 := fun i => match tensor_spline (o := SOps_R) MAXB bs (index_of (degrees outer) i) (length (degrees outer)) with Ok t => t | _ => mk [] [] end : spline R).
  exists T', T0.
  assert (CH : forall i, tensor_spline (o := ornd) MAXB bs' (index_of (degrees outer) i) (length (degrees outer)) = Ok (T' i) /\
    tensor_spline MAXB bs (index_of (degrees outer) i) (length (degrees outer)) = Ok (T0 i) /\ rel p D K S0 (T' i) (T0 i)).
  { intros i. unfold T', T0. destruct (HT i) as (t' & t & -> & -> & Ht). auto. }
  clearbody T' T0.
  split; [intros i _; apply CH|]. split; [|split; [|split]].
  - apply (ComposeSensitivity_raw (o := ornd) MAXB outer D _ _ bs' T' Ho E'). intros i _. apply CH.
  - apply (ComposeSensitivity_raw MAXB outer D _ _ bs T0 Ho E). intros i _. apply CH.
  - intros ovr. rewrite <- (sum_degrees_list p Hp MAXB HB outer).
    apply (ComposeNumerator_raw (o := ornd) (ov := ovr) MAXB outer D _ _ bs' T'); auto.
    intros i _. destruct (CH i) as (X & _ & ((W1 & _ & D1 & _) & D2)). split; auto. split; auto. rewrite (sum_degrees_list p Hp MAXB HB outer). congruence.
  - intros ov. rewrite <- (sum_degrees_list p Hp MAXB HB outer).
    apply (ComposeNumerator_raw (o := SOps_R) (ov := ov) MAXB outer D _ _ bs T0); auto.
    intros i _. destruct (CH i) as (_ & X & ((_ & W1 & D1 & _) & D2)). split; auto. split; auto. rewrite (sum_degrees_list p Hp MAXB HB outer). congruence.
Qed.
End Outer.

Lemma sensR_same {T} {o : SOps T} {W W'} f (a : spline W) (b : spline W') (r : rspline T (point T d)) : wf a -> wf b -> degrees b = degrees a ->
  ComposeNumeratorSensitivity_R MAXB f b r = ComposeNumeratorSensitivity_R MAXB f a r.
Proof using. intros Wa Wb H. rewrite (wf_eq_mk a Wa), (wf_eq_mk b Wb), H. reflexivity. Qed.
Lemma win_domain xs : length xs = length D -> in_unit_box xs -> rdomain inner xs.
Proof using Hp HR Hi HC.
  intros HX HU. split; auto. destruct Hi as (_ & Ww & Dw). pose proof (value_pos win xs Ww win_pos) as H. rewrite Dw in H. specialize (H HX HU). intros E. cbn [s0 SOps_R] in E. lra.
Qed.

Section Maj.
Context (dgs : list nat) (Hne : dgs <> []) (Hdim : length dgs = d).
Context (HF : Forall (fun q => list_sum dgs * q < MAXB)%nat D).
Context (HM : Forall (fun q => q < MAXB)%nat dgs).
Notation S0 := (list_sum dgs).
Notation K := (compose_roundings dgs D).
Notation n := (n_coeffs dgs).

(** The denominator of the composition of a polynomial with a rational spline. *)
Lemma denominator {W} (outer : spline W) : wf outer -> degrees outer = dgs -> exists w' w,
  ComposeDenominator (o := ornd) MAXB outer inner = Ok w' /\ ComposeDenominator (o := SOps_R) MAXB outer inner = Ok w /\
  wf w' /\ wf w /\ degrees w' = map (Nat.mul S0) D /\ degrees w = map (Nat.mul S0) D /\ wclose p K w' w /\
  forall xs, length xs = length D -> value_at w xs = spow (value_at win xs) S0.
Proof using Hp HR HB Hi HC HF Hdim Hfuel Hsz.
  intros Wo Do. pose proof Hi as (Wu & Ww & Dw).
  destruct (power_rel win Ww win_pos S0) with (fuel := S S0) (n := S0) as (w' & w & E' & E & ((W1 & W2 & D1 & C) & D2) & P); auto; [rewrite Dw; exact HF|].
  assert (F : forall o : SOps R, ComposeDenominator MAXB outer inner = RaisePower_rec MAXB (S S0) win S0).
  { intros o. unfold ComposeDenominator, RaisePower. rewrite (sum_degrees_list p Hp MAXB HB outer), Do. reflexivity. }
  rewrite Dw in D2. change (degrees (weighted_spline inner)) with D in D2.
  exists w', w. rewrite (F ornd), (F SOps_R). do 4 (split; [assumption|]). split; [congruence|]. split; [assumption|]. split.
  - intros i Hx. split; [apply P; auto|]. specialize (C i). assert (P0 := P i Hx).
    assert (LE : ((S0 - 1) * (5 * length (degrees win) + 2 + n_coeffs (map (Nat.mul S0) (degrees win))) <= K)%nat).
    { unfold compose_roundings, sensitivity_roundings, inner_product_roundings. rewrite Dw. change (degrees (weighted_spline inner)) with D. nia. }
    apply (Sr'_le p rnd Hp HR _ _ _ _ LE) in C. eapply Sr_Er; [exact Hu|exact Hu1|lra|apply C].
  - destruct (DenR_ok MAXB HB d inner Hi outer) as (w1 & E1 & _ & _ & V1); [rewrite Do; exact HF|].
    rewrite (F SOps_R), E in E1. injection E1 as <-. rewrite Do in V1. exact V1.
Qed.

Section Weights.
Context (wc : list R) (Hwc : length wc = n).
Let wo : spline R := mk dgs wc.
Lemma wo_wf : wf wo.
Proof using Hne Hwc. apply wf_mk; auto. Qed.
Context {V : Type} {ovr : VOps R V} {ov : VOps R V} {M : VMod R V} (v0_r : v0 (VOps := ovr) = v0 (VOps := ov)).
Notation hom pr := (hom_to (o3 := ov) (o3r := ovr) rnd pr).
Context (outer : spline V) (Ho : wf outer) (Do : degrees outer = dgs).

Lemma numerator_maj : exists r r0 w, ComposeNumerator_R (o := ornd) (ov := ovr) MAXB fuel outer inner = Ok r /\
    ComposeNumerator_R (ov := ov) MAXB fuel outer inner = Ok r0 /\ ComposeNumerator_R (ov := VR) MAXB fuel wo inner = Ok w /\ (wf r /\ wf r0 /\ wf w) /\
    (degrees r = map (Nat.mul S0) D /\ degrees r0 = degrees r /\ degrees w = degrees r) /\
    (forall xs, rdomain inner xs -> value_at r0 xs = vscale (spow (value_at win xs) S0) (value_at outer (plist d (rvalue inner xs)))) /\
    (forall xs, rdomain inner xs -> value_at w xs = spow (value_at win xs) S0 * value_at wo (plist d (rvalue inner xs))) /\
    (positive wo -> positive w) /\
    forall pr B, hom pr -> positive wo -> bounded pr B outer wo -> nclose p K pr B r r0 w.
Proof using Hp HR HB M v0_r Ho Do Hwc Hne Hi HC HF HM Hdim Hfuel Hsz.
  pose proof wo_wf as Wo. set (one := mk dgs (repeat 1 n) : spline R).
  assert (W1 : wf one) by (apply wf_mk; auto; apply repeat_length).
  assert (HFo : Forall (fun q => list_sum (degrees outer) * q < MAXB)%nat D) by (rewrite Do; exact HF).
  assert (HMo : Forall (fun q => q < MAXB)%nat (degrees outer)) by (rewrite Do; exact HM).
  assert (Hdo : length (degrees outer) = d) by (rewrite Do; exact Hdim).
  destruct (numerators outer Ho Hdo HFo HMo) as (T' & T0 & HT & _ & ES & N' & N0).
  destruct (numerators wo Wo Hdim HF HM) as (Tw' & Tw & _ & _ & ESw & _ & Nw).
  destruct (numerators one W1 Hdim HF HM) as (T1' & T1 & _ & _ & ES1 & _ & N1).
  rewrite (sensR_same fuel outer wo inner Ho Wo (eq_sym Do)), ES in ESw. rewrite (sensR_same fuel outer one inner Ho W1 (eq_sym Do)), ES in ES1.
  rewrite Do in HT, ES, ESw, ES1, N', N0. change (degrees wo) with dgs in *. change (degrees one) with dgs in *.
  assert (SW : forall i, (i < n)%nat -> Tw i = T0 i).
  { intros i Hx. injection ESw as ESw. rewrite <- (nth_map_seq Tw n i (mk [] [])), <- (nth_map_seq T0 n i (mk [] [])) by auto. rewrite ESw. reflexivity. }
  assert (S1 : forall i, (i < n)%nat -> T1 i = T0 i).
  { intros i Hx. injection ES1 as ES1. rewrite <- (nth_map_seq T1 n i (mk [] [])), <- (nth_map_seq T0 n i (mk [] [])) by auto. rewrite ES1. reflexivity. }
  destruct (N' ovr) as (r & E & Wr & Dr & Cr). destruct (N0 ov) as (r0 & E0 & W0 & D0 & C0). destruct (Nw VR) as (w & Ew & Ww & Dw & Cw). destruct (N1 VR) as (q & Eq & Wq & Dq & Cq).
  clear N' N0 Nw N1.
  destruct (NumR_ok MAXB HB d inner Hi Hsz fuel Hfuel outer Ho Hdo HFo HMo) as (r1 & E1 & _ & _ & V0). rewrite E0 in E1. injection E1 as <-. rewrite Do in V0.
  destruct (NumR_ok MAXB HB d inner Hi Hsz fuel Hfuel wo Wo Hdim HF HM) as (r1 & E1 & _ & _ & Vw). rewrite Ew in E1. injection E1 as <-.
  destruct (NumR_ok MAXB HB d inner Hi Hsz fuel Hfuel one W1 Hdim HF HM) as (r1 & E1 & _ & _ & Vq). rewrite Eq in E1. injection E1 as <-.
  change (degrees wo) with dgs in Vw. change (degrees one) with dgs in Vq.
  exists r, r0, w. do 3 (split; [assumption|]). split; [auto|]. split; [split; [exact Dr|split; congruence]|]. split; [exact V0|]. split; [exact Vw|].
  set (t' i j := nth j (control_points (T' i)) 0) in *. set (t i j := nth j (control_points (T0 i)) 0) in *.
  assert (Tt : forall i j, (i < n)%nat -> Sr' u (sensitivity_roundings dgs D) (t' i j) (t i j)).
  { intros i j Hn. destruct (HT i Hn) as ((_ & _ & _ & C) & _). apply C. }
  assert (CW : forall j, (j < n_coeffs (map (Nat.mul S0) D))%nat -> nth j (control_points w) 0 = vsum (V := R) n (fun i => t i j * nth i wc 0)).
  { intros j Hj. rewrite <- Dw in Hj. change (@v0 R R VR) with 0 in Cw. rewrite Cw by auto. apply vsum_ext. intros i Hx. rewrite SW by auto. reflexivity. }
  split.
  - intros HP j Hj. rewrite Dw in Hj. rewrite CW by auto.
    assert (TS : 0 < ssum (T := R) n (fun i => t i j)).
    { destruct (denominator one W1 eq_refl) as (dn & den & _ & _ & _ & Wd & _ & Dd & PD & VD). change (degrees one) with dgs in *.
      assert (EQ : nth j (control_points q) 0 = nth j (control_points den) 0).
      { apply unique_box; auto; [congruence| |rewrite Dq; exact Hj]. intros xs HX HU. rewrite Dq, map_length in HX. rewrite VD by auto. rewrite Vq by (apply win_domain; auto).
        assert (V1 : value_at one (plist d (rvalue inner xs)) = 1).
        { change (value_at one (plist d (rvalue inner xs)) = @s1 R SOps_R). rewrite <- (bezier_const' (T := R) dgs (plist d (rvalue inner xs))) by (rewrite plist_length; auto). unfold value_at. apply (bezier_ext (V := R)). intros i Hx. cbn [one mk control_points].
          change (@v0 R R VR) with 0. change (@s1 R SOps_R) with 1. rewrite (nth_indep (repeat 1 n) 0 1) by (rewrite repeat_length; exact Hx). apply nth_repeat. }
        rewrite V1. cbn [vscale VOps_scalar smul SOps_R]. apply Rmult_1_r. }
      assert (Q : nth j (control_points q) 0 = ssum (T := R) n (fun i => t i j)).
      { change (@v0 R R VR) with 0 in Cq. rewrite Cq by (rewrite Dq; exact Hj). change (ssum (T := R) n (fun i => t i j)) with (vsum (V := R) n (fun i => t i j)). apply (vsum_ext (V := R)). intros i Hx. rewrite S1 by auto. cbn [one mk control_points].
        rewrite (nth_indep (repeat 1 n) 0 1) by (rewrite repeat_length; exact Hx). rewrite nth_repeat. apply Rmult_1_r. }
      rewrite <- Q, EQ. apply PD. rewrite Dd. exact Hj. }
    assert (Mon : forall m, (m <= n)%nat -> 0 <= ssum (T := R) m (fun i => t i j) /\ 0 <= vsum (V := R) m (fun i => t i j * nth i wc 0) /\
       (0 < ssum (T := R) m (fun i => t i j) -> 0 < vsum (V := R) m (fun i => t i j * nth i wc 0))).
    { induction m; intros Hm; [cbn; lra|]. destruct (IHm ltac:(lia)) as (I0 & I1 & I2). cbn [ssum vsum vadd VOps_scalar sadd SOps_R].
      pose proof (proj1 (Tt m j ltac:(lia))) as T2. pose proof (HP m ltac:(cbn [wo mk degrees]; lia)) as P0. cbn [wo mk control_points] in P0.
      assert (0 <= t m j * nth m wc 0) by (apply Rmult_le_pos; lra). split; [lra|]. split; [lra|]. intros S.
      destruct (Rle_lt_dec (t m j) 0) as [Z|Z]; [assert (0 < ssum (T := R) m (fun i => t i j)) by lra; specialize (I2 H0); lra|].
      assert (0 < t m j * nth m wc 0) by (apply Rmult_lt_0_compat; lra). lra. }
    apply (Mon n ltac:(lia)). exact TS.
  - intros pr B (H1 & H2 & H3 & H4 & H5) HP HBd j Hj. rewrite Dw in Hj.
    assert (Psum : forall m f, pr (vsum (ov := ov) m f) = vsum (V := R) m (fun i => pr (f i))).
    { intros m f. induction m; cbn [vsum]; [exact H5|]. rewrite H1, IHm. reflexivity. }
    assert (Psumr : forall m f, pr (vsum (ov := ovr) m f) = vsum (ov := VOps_scalar R (o := SOps_rnd rnd)) m (fun i => pr (f i))).
    { intros m f. induction m; cbn [vsum]; [rewrite v0_r; exact H5|]. rewrite H3, IHm. reflexivity. }
    rewrite CW by auto. rewrite v0_r in Cr. rewrite Cr by (rewrite Dr; auto). rewrite C0 by (rewrite D0; auto).
    rewrite Psum, Psumr.
    pose proof (Accumulate_err rnd (/ 2 ^ p) (unit_pos p) (nearest_error p rnd Hp HR) (unit_lt_1 p Hp) 0 (sensitivity_roundings dgs D) (fun i => t i j) (fun i => t' i j) (fun i => pr (nth i (control_points outer) v0))
      (rnd_idem p rnd HR) n (fun i Hn => Tt i j Hn)) as A.
    rewrite (vsum_ext (ov := VOps_scalar R (o := SOps_rnd rnd)) n _ (fun i => rnd (t' i j * pr (nth i (control_points outer) v0)))) by (intros i Hn; apply H4).
    rewrite (vsum_ext (ov := VR) n _ (fun i => t i j * pr (nth i (control_points outer) v0))) by (intros i Hn; apply H2).
    unfold compose_roundings.
    eapply Er_weak; [apply (u_pow u Hu)| |exact A].
    apply Rle_trans with (vsum (V := R) n (fun i => B * (t i j * nth i wc 0))).
    + assert (Mon : forall m, (m <= n)%nat -> vsum (V := R) m (fun i => t i j * Rabs (pr (nth i (control_points outer) v0))) <= vsum (V := R) m (fun i => B * (t i j * nth i wc 0))).
      { induction m; intros Hm; cbn [vsum]; [apply Rle_refl|]. cbn [vadd VOps_scalar sadd SOps_R]. apply Rplus_le_compat; [apply IHm; lia|].
        replace (B * (t m j * nth m wc 0)) with (t m j * (B * nth m wc 0)) by ring.
        apply Rmult_le_compat_l; [apply (Tt m j); lia|]. apply HBd. cbn [wo mk degrees]. lia. }
      apply Mon. lia.
    + right. exact (ssum_scale (T := R) n B (fun i => t i j * nth i wc 0)).
Qed.
End Weights.
End Maj.
End Inner.
End Gen.
