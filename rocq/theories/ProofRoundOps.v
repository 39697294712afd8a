(** Error propagation through degree elevation, subdivision and addition. *)
From Coq Require Import Arith Lia List ZArith NArith Bool Reals Lra Psatz.
From Verif Require Import Prelude Scalar Spec SpecSpline Sums Order Coord ModelBasis ModelSpline
  ModelRound SpecRound ProofIndex ProofBasis ProofEval ProofElevate ProofArith ProofSplit ProofDeriv ProofDerivSpline ProofParam ProofCasteljau ProofRound ProofRoundEval
  ProofRaw ClaimsU.
Import ListNotations.
Local Open Scope R_scope.

Lemma Er_weak g y x A B : 1 <= g -> A <= B -> Er g y x A -> Er g y x B.
Proof. intros Hg L (H1 & H2). split; [|lra]. eapply Rle_trans; [exact H1|]. apply Rmult_le_compat_l; lra. Qed.
Lemma Er_sub g a b x y A B : Er g a x A -> Er g b y B -> Er g (a - b) (x - y) (A + B).
Proof.
  intros (H1 & H2) (H3 & H4). split.
  - replace (a - b - (x - y)) with ((a - x) + - (b - y)) by ring. eapply Rle_trans; [apply Rabs_triang|]. rewrite Rabs_Ropp. lra.
  - unfold Rminus. eapply Rle_trans; [apply Rabs_triang|]. rewrite Rabs_Ropp. lra.
Qed.

Section Gen.
Context (p : nat) (rnd : R -> R) (Hp : (0 < p)%nat) (HR : nearest p rnd).
Let u := / 2 ^ p.
Let Hu : 0 <= u := unit_pos p.
Let Hu1 : u < 1 := unit_lt_1 p Hp.
Let Hr : forall x, Rabs (rnd x - x) <= u * Rabs x := nearest_error p rnd Hp HR.
Notation ornd := (SOps_rnd rnd).
Notation Vs := (VOps_scalar R (o := ornd)).

Lemma gamma_pos k : 0 <= gamma p k.
Proof using Hp. unfold gamma. pose proof (u_pow u Hu k). unfold u in *. lra. Qed.

Lemma ofnat_exact n : (Z.of_nat n < 2 ^ Z.of_nat p)%Z -> rnd (INR n) = INR n.
Proof using Hp HR.
  intros H. apply (nearest_exact p); auto. exists (Z.of_nat n), 0%Z. split; [lia|]. rewrite INR_IZR_INZ. simpl. ring.
Qed.
Lemma sofnat_INR n : sofnat (H := SOps_R) n = INR n.
Proof. unfold sofnat. cbn [sofN SOps_R]. rewrite nat_N_Z, <- INR_IZR_INZ. reflexivity. Qed.
Lemma sofnat_rnd n : (Z.of_nat n < 2 ^ Z.of_nat p)%Z -> sofnat (H := ornd) n = INR n.
Proof using Hp HR. intros H. unfold sofnat. cbn [sofN SOps_rnd]. rewrite nat_N_Z, <- INR_IZR_INZ. apply ofnat_exact. auto. Qed.

Lemma Er_r k y x A : Er ((1 + u) ^ k) y x A -> Er ((1 + u) ^ S k) (rnd y) x A.
Proof using Hp HR. intros H. cbn [pow]. rewrite Rmult_comm. apply (Er_rnd rnd u Hu Hr). auto. Qed.
Lemma Er_m j k a b x y A B : Er ((1 + u) ^ j) a x A -> Er ((1 + u) ^ k) b y B -> Er ((1 + u) ^ (j + k)) (a * b) (x * y) (A * B).
Proof using Hp. intros. rewrite pow_add. apply Er_mul; auto; apply (u_pow u Hu). Qed.
Lemma Er_x x : Er ((1 + u) ^ 0) x x (Rabs x).
Proof using. apply Er_exact. Qed.
Lemma Er_xp x : 0 <= x -> Er ((1 + u) ^ 0) x x x.
Proof using. apply Er_exact_pos. Qed.
Lemma Er_up j k y x A : (j <= k)%nat -> Er ((1 + u) ^ j) y x A -> Er ((1 + u) ^ k) y x A.
Proof using Hp. intros L. apply Er_le. apply (u_pow_le u Hu). auto. Qed.

(** One line of coefficients. *)
Lemma relev_err q f M i : (Z.of_nat (q + 1) < 2 ^ Z.of_nat p)%Z -> (i <= q + 1)%nat -> (forall j, (j <= q)%nat -> Rabs (f j) <= M) ->
  Rabs (relev (o := ornd) (ov := Vs) q f i - relev (V := R) q f i) <= gamma p 5 * (3 * M) /\ Rabs (relev (V := R) q f i) <= M.
Proof using Hp HR.
  intros Hq Hi HM.
  assert (M0 : 0 <= M) by (eapply Rle_trans; [apply Rabs_pos|apply (HM 0%nat); lia]).
  assert (G := gamma_pos 5).
  assert (Z : forall x, Rabs (x - x) <= gamma p 5 * (3 * M)).
  { intros x. replace (x - x) with 0 by ring. rewrite Rabs_R0. apply Rmult_le_pos; lra. }
  unfold relev. destruct (Nat.eqb_spec i 0) as [->|Hi0]; [split; [apply Z|apply HM; lia]|].
  destruct (Nat.eqb_spec i (q + 1)) as [->|Hi1]; [split; [apply Z|apply HM; lia]|].
  rewrite !sofnat_INR, !sofnat_rnd by lia. cbn [smul sadd sdiv ssub s1 SOps_R SOps_rnd vadd vscale VOps_scalar]. change R1 with 1.
  set (a := INR i). set (b := INR (q + 1)).
  assert (B0 : 0 < b) by (apply lt_0_INR; lia). assert (A0 : 0 <= a) by apply pos_INR.
  assert (AB : a <= b) by (apply le_INR; lia).
  assert (IB : 0 < / b) by (apply Rinv_0_lt_compat; auto).
  assert (F0 : 0 <= a * (1 / b) <= 1).
  { unfold Rdiv. rewrite Rmult_1_l. split; [apply Rmult_le_pos; lra|]. apply (Rmult_le_reg_r b); auto. rewrite Rmult_assoc, Rinv_l by lra. lra. }
  assert (E1 : Er ((1 + u) ^ 1) (rnd (1 / b)) (1 / b) (1 / b)) by (apply Er_r, Er_xp; unfold Rdiv; lra).
  assert (E2 : Er ((1 + u) ^ 2) (rnd (a * rnd (1 / b))) (a * (1 / b)) (a * (1 / b))).
  { apply Er_r. apply (Er_m 0 1); auto. apply Er_xp. auto. }
  set (fr := rnd (a * rnd (1 / b))) in *. set (fe := a * (1 / b)) in *.
  assert (E3 : Er ((1 + u) ^ 3) (rnd (1 - fr)) (1 - fe) (1 + fe)).
  { apply Er_r. apply Er_sub; auto. apply (Er_up 0); [lia|]. apply Er_xp. lra. }
  assert (T1 : Er ((1 + u) ^ 4) (rnd (rnd (1 - fr) * f i)) ((1 - fe) * f i) ((1 + fe) * Rabs (f i))).
  { apply Er_r. apply (Er_m 3 0); auto. apply Er_x. }
  assert (T2 : Er ((1 + u) ^ 4) (rnd (fr * f (i - 1)%nat)) (fe * f (i - 1)%nat) (fe * Rabs (f (i - 1)%nat))).
  { apply (Er_up 3); [lia|]. apply Er_r. apply (Er_m 2 0); auto. apply Er_x. }
  pose proof (HM i ltac:(lia)) as Ma. pose proof (HM (i - 1)%nat ltac:(lia)) as Mb.
  pose proof (Rabs_pos (f i)) as Pa. pose proof (Rabs_pos (f (i - 1)%nat)) as Pb.
  assert (T3 : Er ((1 + u) ^ 5) (rnd (rnd (rnd (1 - fr) * f i) + rnd (fr * f (i - 1)%nat))) ((1 - fe) * f i + fe * f (i - 1)%nat) (3 * M)).
  { apply Er_r. eapply Er_weak; [apply (u_pow u Hu)| |apply Er_add; [exact T1|exact T2]]. nra. }
  split; [apply T3|]. eapply Rle_trans; [apply Rabs_triang|]. rewrite !Rabs_mult, (Rabs_right (1 - fe)), (Rabs_right fe) by lra. nra.
Qed.

(** ** Any kind of control point, seen through one coordinate *)
Context {V : Type} {ovr : VOps R V} {ov : VOps R V} {M : VMod R V} (pr : V -> R).
Context (pr_add : forall a b, pr (vadd (VOps := ov) a b) = pr a + pr b)
        (pr_scale : forall c a, pr (vscale (VOps := ov) c a) = c * pr a)
        (pr_add_r : forall a b, pr (vadd (VOps := ovr) a b) = rnd (pr a + pr b))
        (pr_scale_r : forall c a, pr (vscale (VOps := ovr) c a) = rnd (c * pr a))
        (v0_r : v0 (VOps := ovr) = v0 (VOps := ov)).

Lemma pr_relev q f i : pr (relev (ov := ov) q f i) = relev (V := R) q (fun j => pr (f j)) i.
Proof using M pr_add pr_scale.
  unfold relev. destruct (i =? 0)%nat; auto. destruct (i =? q + 1)%nat; auto. rewrite pr_add, !pr_scale. reflexivity.
Qed.
Lemma pr_relev_r q f i : pr (relev (o := ornd) (ov := ovr) q f i) = relev (o := ornd) (ov := Vs) q (fun j => pr (f j)) i.
Proof using pr_add_r pr_scale_r.
  unfold relev. destruct (i =? 0)%nat; auto. destruct (i =? q + 1)%nat; auto. rewrite pr_add_r, !pr_scale_r. reflexivity.
Qed.
Lemma pr_bezier degs xs f : length xs = length degs -> pr (bezier (H0 := ov) degs xs f) = bezier degs xs (fun i => pr (f i)).
Proof using M pr_add pr_scale.
  intros HL. rewrite <- dct_bezier by auto. rewrite <- (dct_bezier (V := R)) by auto.
  apply (dct_hom (o := SOps_R) (ov := ov) (ow := VOps_scalar R) pr); auto.
Qed.
Definition below (c : list V) (B : R) : Prop := Forall (fun a => Rabs (pr a) <= B) c.

Lemma bezier_bound degs xs f B : length xs = length degs -> in_unit_box xs ->
  (forall i, (i < n_coeffs degs)%nat -> Rabs (f i) <= B) -> Rabs (bezier degs xs f) <= B.
Proof using.
  intros HL HX H. apply Rabs_le. split.
  - cut (bezier degs xs (fun i => vopp (V := R) (f i)) <= B).
    { rewrite bezier_opp. cbn [vopp VOps_scalar sopp SOps_R]. lra. }
    apply magnitude_bound; auto. intros i Hi. specialize (H i Hi). cbn [vopp VOps_scalar sopp SOps_R]. unfold Rabs in H. destruct (Rcase_abs (f i)); lra.
  - apply magnitude_bound; auto. intros i Hi. specialize (H i Hi). unfold Rabs in H. destruct (Rcase_abs (f i)); lra.
Qed.
(** Splines with nearby coefficients have nearby values. *)
Lemma close_values (s t : spline V) xs B : wf s -> wf t -> degrees t = degrees s -> length xs = length (degrees s) -> in_unit_box xs ->
  (forall i, (i < n_coeffs (degrees s))%nat -> Rabs (pr (nth i (control_points t) v0) - pr (nth i (control_points s) v0)) <= B) ->
  Rabs (pr (value_at t xs) - pr (value_at s xs)) <= B.
Proof using M pr_add pr_scale.
  intros Hs Ht Hd HL HX H. unfold value_at. rewrite !pr_bezier by congruence. rewrite Hd.
  set (f := fun i => pr (nth i (control_points t) v0)) in *. set (g := fun i => pr (nth i (control_points s) v0)) in *.
  change (Rabs (vsub (V := R) (bezier (degrees s) xs f) (bezier (degrees s) xs g)) <= B).
  rewrite <- (bezier_sub (V := R)). apply bezier_bound; auto.
Qed.

Lemma fl_nth (c : list V) B : below c B <-> forall i, (i < length c)%nat -> Rabs (pr (nth i c v0)) <= B.
Proof using.
  unfold below. rewrite Forall_forall. split.
  - intros H i Hi. apply H, nth_In, Hi.
  - intros H a Ha. apply (In_nth _ _ v0) in Ha. destruct Ha as (i & Hi & <-). auto.
Qed.

Lemma elevate_err (s : spline V) k B : wf s -> (k < length (degrees s))%nat ->
  (Z.of_nat (nth k (degrees s) 0%nat + 1) < 2 ^ Z.of_nat p)%Z ->
  (Z.of_nat (n_coeffs (upd_list (degrees s) k (S (nth k (degrees s) 0%nat)))) < 2 ^ 31)%Z ->
  below (control_points s) B ->
  exists e e0, OrderElevate (o := ornd) (ov := ovr) s k = Ok e /\ OrderElevate (ov := ov) s k = Ok e0 /\ wf e /\ wf e0 /\
    degrees e = upd_list (degrees s) k (S (nth k (degrees s) 0%nat)) /\ degrees e0 = degrees e /\
    same_values s e0 /\ below (control_points e0) B /\
    forall i, (i < n_coeffs (degrees e))%nat ->
      Rabs (pr (nth i (control_points e) v0) - pr (nth i (control_points e0) v0)) <= gamma p 5 * (3 * B).
Proof using Hp HR M pr_add pr_scale pr_add_r pr_scale_r v0_r.
  intros Hw Hk Hq Hsz HB. set (q := nth k (degrees s) 0%nat) in *.
  assert (Es : S q = (q + 1)%nat) by lia. rewrite Es in *.
  assert (Z1 : seqb (SOps := ornd) (sofnat (H := ornd) (q + 1)) (s0 (SOps := ornd)) = false).
  { rewrite sofnat_rnd by lia. cbn [seqb s0 SOps_rnd]. destruct (Req_EM_T (INR (q + 1)) 0) as [E|]; auto.
    exfalso. assert (0 < INR (q + 1)) by (apply lt_0_INR; lia). lra. }
  assert (Z2 : seqb (sofnat (q + 1)) (s0 : R) = false).
  { rewrite sofnat_INR. cbn [seqb s0 SOps_R]. destruct (Req_EM_T (INR (q + 1)) R0) as [E|]; auto.
    exfalso. assert (0 < INR (q + 1)) by (apply lt_0_INR; lia). change R0 with 0 in E. lra. }
  destruct (OrderElevate_step s k Hw Hk) as (e0 & E0 & We0 & De0 & SV). { fold q. rewrite Es. exact Hsz. }
  fold q in De0. rewrite Es in De0.
  pose proof (OrderElevate_raw (o := ornd) (ov := ovr) s k Hw Hk Z1 Hsz) as E. fold q in E.
  pose proof (OrderElevate_raw (ov := ov) s k Hw Hk Z2 Hsz) as E1. fold q in E1.
  rewrite E0 in E1. injection E1 as E1.
  set (degs' := upd_list (degrees s) k (q + 1)%nat) in *. set (off := n_coeffs (firstn k (degrees s))) in *.
  assert (Hoff : (0 < off)%nat) by apply n_coeffs_pos.
  set (cnt := n_coeffs (skipn (S k) (degrees s))).
  assert (Etot : n_coeffs (degrees s) = (off * (q + 1) * cnt)%nat).
  { rewrite (n_coeffs_split (degrees s) k), (skipn_cons_nth 0%nat (degrees s) k) by auto.
    rewrite n_coeffs_cons. fold q off cnt. lia. }
  assert (Etot' : n_coeffs degs' = (off * (q + 2) * cnt)%nat).
  { unfold degs'. rewrite upd_split by auto. rewrite n_coeffs_app, n_coeffs_cons. fold off cnt. lia. }
  assert (Lc : length (control_points s) = n_coeffs (degrees s)) by apply Hw.
  rewrite fl_nth in HB. rewrite Lc in HB.
  assert (HC : forall i, (i < n_coeffs degs')%nat -> exists a j m, (a < off)%nat /\ (j <= q + 1)%nat /\ (m < cnt)%nat /\ i = (a + off * (j + (q + 2) * m))%nat).
  { intros i Hi. exists (i mod off)%nat, (i / off mod (q + 2))%nat, (i / off / (q + 2))%nat.
    split; [apply Nat.mod_upper_bound; lia|]. split; [pose proof (Nat.mod_upper_bound (i / off) (q + 2)); lia|]. split.
    - apply Nat.div_lt_upper_bound; [lia|]. apply Nat.div_lt_upper_bound; [lia|]. rewrite Etot' in Hi. nia.
    - rewrite (Nat.div_mod i off) at 1 by lia. rewrite (Nat.div_mod (i / off) (q + 2)) at 1 by lia. lia. }
  assert (Key : forall i, (i < n_coeffs degs')%nat ->
    Rabs (pr (nth i (relev_points (o := ornd) (ov := ovr) off q (n_coeffs degs') (control_points s)) v0) -
          pr (nth i (relev_points (ov := ov) off q (n_coeffs degs') (control_points s)) v0)) <= gamma p 5 * (3 * B) /\
    Rabs (pr (nth i (relev_points (ov := ov) off q (n_coeffs degs') (control_points s)) v0)) <= B).
  { intros i Hi. destruct (HC i Hi) as (a & j & m & Ha & Hj & Hm & ->).
    rewrite <- v0_r at 1. rewrite (nth_relev_points (o := ornd) (ov := ovr)) by auto. rewrite (nth_relev_points (ov := ov)) by auto.
    rewrite pr_relev_r, pr_relev. rewrite v0_r.
    apply (relev_err q (fun j0 => pr (nth (a + off * (j0 + S q * m)) (control_points s) v0)) B j); auto.
    intros j0 Hj0. apply HB. rewrite Etot.
    assert (off * ((q + 1) * S m) <= off * ((q + 1) * cnt))%nat by (apply Nat.mul_le_mono_l, Nat.mul_le_mono_l; lia). nia. }
  assert (We : wf (mk degs' (relev_points (o := ornd) (ov := ovr) off q (n_coeffs degs') (control_points s)))).
  { apply wf_mk; [|unfold relev_points; rewrite map_length, seq_length; auto].
    unfold degs'. destruct Hw as (Hne & _). intros Z. apply (f_equal (@length nat)) in Z. rewrite length_upd in Z. destruct (degrees s); simpl in *; [congruence|lia]. }
  eexists. exists e0. split; [exact E|]. split; auto. split; auto. split; auto. split; [reflexivity|]. split; [exact De0|]. split; auto.
  rewrite E1. cbn [mk control_points degrees]. split.
  - rewrite fl_nth. unfold relev_points at 1. rewrite map_length, seq_length. intros i Hi. apply Key. auto.
  - intros i Hi. apply Key. auto.
Qed.

(** ** Several elevations *)
Lemma g1 : 1 <= 1 + 3 * gamma p 5.
Proof using Hp. pose proof (gamma_pos 5). lra. Qed.
Notation g := (1 + 3 * gamma p 5).
Definition drift (s e : spline V) (n : nat) (B : R) : Prop :=
  below (control_points e) (g ^ n * B) /\
  forall xs, length xs = length (degrees s) -> in_unit_box xs -> Rabs (pr (value_at e xs) - pr (value_at s xs)) <= (g ^ n - 1) * B.
Lemma drift_0 s B : below (control_points s) B -> drift s s 0 B.
Proof using Hp.
  intros H. split; [cbn [pow]; rewrite Rmult_1_l; auto|]. intros xs _ _. cbn [pow]. replace (pr (value_at s xs) - pr (value_at s xs)) with 0 by ring.
  rewrite Rabs_R0. lra.
Qed.
Lemma drift_trans s y e m n B : length (degrees y) = length (degrees s) -> 0 <= B ->
  drift s y m B -> drift y e n (g ^ m * B) -> drift s e (m + n) B.
Proof using Hp.
  intros HL HB (H1 & H2) (H3 & H4). split.
  - replace (g ^ (m + n) * B) with (g ^ n * (g ^ m * B)) by (rewrite pow_add; ring). auto.
  - intros xs HX HU. replace (pr (value_at e xs) - pr (value_at s xs)) with
      ((pr (value_at e xs) - pr (value_at y xs)) + (pr (value_at y xs) - pr (value_at s xs))) by ring.
    eapply Rle_trans; [apply Rabs_triang|]. specialize (H2 xs HX HU). specialize (H4 xs ltac:(congruence) HU).
    replace ((g ^ (m + n) - 1) * B) with ((g ^ n - 1) * (g ^ m * B) + (g ^ m - 1) * B) by (rewrite pow_add; ring). lra.
Qed.
Lemma below_pos (s : spline V) B : wf s -> below (control_points s) B -> 0 <= B.
Proof using M pr.
  intros (_ & _ & _ & HL) H. rewrite fl_nth in H. eapply Rle_trans; [apply Rabs_pos|]. apply (H 0%nat). rewrite HL. apply n_coeffs_pos.
Qed.
Lemma elevate_drift (s : spline V) k B : wf s -> (k < length (degrees s))%nat ->
  (Z.of_nat (nth k (degrees s) 0%nat + 1) < 2 ^ Z.of_nat p)%Z ->
  (Z.of_nat (n_coeffs (upd_list (degrees s) k (S (nth k (degrees s) 0%nat)))) < 2 ^ 31)%Z ->
  below (control_points s) B ->
  exists e, OrderElevate (o := ornd) (ov := ovr) s k = Ok e /\ wf e /\
    degrees e = upd_list (degrees s) k (S (nth k (degrees s) 0%nat)) /\ drift s e 1 B.
Proof using Hp HR M pr_add pr_scale pr_add_r pr_scale_r v0_r.
  intros Hw Hk Hq Hsz HB. destruct (elevate_err s k B Hw Hk Hq Hsz HB) as (e & e0 & E & E0 & We & We0 & De & De0 & SV & HB0 & HC).
  exists e. split; auto. split; auto. split; auto. split.
  - rewrite fl_nth in *. assert (L : length (control_points e0) = length (control_points e)).
    { destruct We as (_ & _ & _ & L1), We0 as (_ & _ & _ & L2). congruence. }
    intros i Hi. specialize (HB0 i ltac:(lia)). specialize (HC i). destruct We as (_ & _ & _ & L1). rewrite <- L1 in HC. specialize (HC Hi).
    rewrite pow_1. replace (pr (nth i (control_points e) v0)) with
      ((pr (nth i (control_points e) v0) - pr (nth i (control_points e0) v0)) + pr (nth i (control_points e0) v0)) by ring.
    eapply Rle_trans; [apply Rabs_triang|]. lra.
  - intros xs HX HU. rewrite <- (SV xs HX). eapply Rle_trans.
    + apply (close_values e0 e xs (gamma p 5 * (3 * B))); auto.
      * rewrite De0, De, length_upd. auto.
      * rewrite De0. auto.
    + rewrite pow_1. lra.
Qed.
Lemma elevate_to_drift fuel target k (s : spline V) B : wf s -> (k < length (degrees s))%nat ->
  (Z.of_nat target < 2 ^ Z.of_nat p)%Z ->
  (Z.of_nat (n_coeffs (upd_list (degrees s) k (Nat.max (nth k (degrees s) 0%nat) target))) < 2 ^ 31)%Z ->
  (target < fuel)%nat -> below (control_points s) B ->
  exists e, elevate_to (o := ornd) (ov := ovr) fuel target k s = Ok e /\ wf e /\
    degrees e = upd_list (degrees s) k (Nat.max (nth k (degrees s) 0%nat) target) /\
    drift s e (target - nth k (degrees s) 0%nat) B.
Proof using Hp HR M pr_add pr_scale pr_add_r pr_scale_r v0_r.
  intros Hw Hk Ht Hs Hf HB. pose proof (below_pos s B Hw HB) as B0. unfold elevate_to.
  destruct (while_inv (fun y : spline V => wf y /\
      exists q, degrees y = upd_list (degrees s) k q /\ (nth k (degrees s) 0 <= q)%nat /\
                (q <= Nat.max (nth k (degrees s) 0) target)%nat /\ drift s y (q - nth k (degrees s) 0%nat) B)
    (fun y => (target - nth k (degrees y) 0)%nat)
    (fun y => (nth k (degrees y) 0 <? target)%nat) (fun y => OrderElevate (o := ornd) (ov := ovr) y k) fuel s)
    as (y & E & (Hwy & q & Hd & Hq1 & Hq2 & HD) & Hc).
  - lia.
  - split; auto. exists (nth k (degrees s) 0%nat). split; [|split; [lia|split; [lia|]]].
    + apply (list_ext 0%nat); [now rewrite length_upd|]. intros i Hi.
      rewrite nth_upd by auto. destruct (Nat.eqb_spec i k) as [->|]; auto.
    + rewrite Nat.sub_diag. apply drift_0; auto.
  - intros y (Hwy & q & Hd & Hq1 & Hq2 & HD) Hc. apply Nat.ltb_lt in Hc.
    assert (Eq : nth k (degrees y) 0%nat = q) by (rewrite Hd; apply nth_upd_same; auto).
    assert (HLy : length (degrees y) = length (degrees s)) by (rewrite Hd; apply length_upd).
    assert (Eu : upd_list (degrees y) k (S q) = upd_list (degrees s) k (S q)).
    { rewrite Hd. apply (list_ext 0%nat); [now rewrite !length_upd|]. intros i Hi.
      rewrite !nth_upd by (rewrite ?length_upd; auto). destruct (i =? k)%nat; auto. }
    rewrite Eq in Hc.
    destruct (elevate_drift y k (g ^ (q - nth k (degrees s) 0%nat) * B)) as (y' & E & Hwy' & Hd' & HD'); auto; [lia|lia| |apply HD|].
    + rewrite Eq, Eu. eapply Z.le_lt_trans; [|exact Hs]. apply inj_le. apply n_coeffs_mono.
      apply le_degs_nth; [now rewrite !length_upd|]. intros i Hi.
      rewrite !nth_upd by auto. destruct (i =? k)%nat; lia.
    + exists y'. split; auto. rewrite Eq, Eu in Hd'. split.
      * split; auto. exists (S q). split; auto. split; [lia|]. split; [lia|].
        replace (S q - nth k (degrees s) 0)%nat with (q - nth k (degrees s) 0 + 1)%nat by lia. eapply drift_trans; eauto.
      * rewrite Hd', Hd, !nth_upd_same by auto. lia.
  - exists y. split; [exact E|]. split; auto. apply Nat.ltb_ge in Hc. rewrite Hd, nth_upd_same in Hc by auto. split.
    + rewrite Hd. f_equal. lia.
    + destruct (le_lt_dec target (nth k (degrees s) 0%nat)).
      * replace (target - nth k (degrees s) 0)%nat with (q - nth k (degrees s) 0)%nat by lia. auto.
      * replace target with q by lia. auto.
Qed.
Lemma elevate_all_drift fuel targets (s : spline V) B : wf s -> length targets = length (degrees s) ->
  (Z.of_nat (list_max targets) < 2 ^ Z.of_nat p)%Z ->
  (Z.of_nat (n_coeffs (max_degs (degrees s) targets)) < 2 ^ 31)%Z ->
  (list_max targets < fuel)%nat -> below (control_points s) B ->
  exists e, elevate_all (o := ornd) (ov := ovr) fuel targets s = Ok e /\ wf e /\
    degrees e = max_degs (degrees s) targets /\ drift s e (elevations (degrees s) targets) B.
Proof using Hp HR M pr_add pr_scale pr_add_r pr_scale_r v0_r.
  intros Hw HL Ht Hs Hf HB. pose proof (below_pos s B Hw HB) as B0. unfold elevate_all.
  set (D := map2 (fun a b => (b - a)%nat) (degrees s) targets).
  assert (LD : length D = length (degrees s)) by (unfold D; apply length_map2; auto).
  assert (ND : forall k, (k < length (degrees s))%nat -> nth k D 0%nat = (nth k targets 0 - nth k (degrees s) 0)%nat).
  { intros k Hk. unfold D. rewrite (nth_map2 _ _ _ _ 0%nat 0%nat) by lia. reflexivity. }
  edestruct (for_up_inv (fun k (y : spline V) => wf y /\ drift s y (list_sum (firstn k D)) B /\
    length (degrees y) = length (degrees s) /\
    forall j, nth j (degrees y) 0%nat = if (j <? k)%nat then Nat.max (nth j (degrees s) 0%nat) (nth j targets 0%nat)
                                    else nth j (degrees s) 0%nat)) as (y & E & Hwy & HV & HLy & HN).
  3:{ exists y. split; [exact E|]. split; auto. split.
      - apply (list_ext 0%nat); [rewrite length_max_degs; auto|]. intros i Hi.
        rewrite HN, nth_max_degs by auto. rewrite (proj2 (Nat.ltb_lt _ _)); auto. lia.
      - unfold elevations. fold D. rewrite firstn_all2 in HV by lia. exact HV. }
  - split; auto. split; [apply drift_0; auto|]. split; auto.
  - intros k y Hk (Hwy & HV & HLy & HN). rewrite (get_ok 0%nat) by lia. cbn [bind].
    assert (Hyk : nth k (degrees y) 0%nat = nth k (degrees s) 0%nat).
    { rewrite HN, (proj2 (Nat.ltb_ge _ _)); auto. }
    pose proof (list_max_nth targets k).
    destruct (elevate_to_drift fuel (nth k targets 0%nat) k y (g ^ list_sum (firstn k D) * B)) as (y' & E & Hwy' & Hd' & HV'); auto.
    + lia.
    + lia.
    + eapply Z.le_lt_trans; [|exact Hs]. apply inj_le, n_coeffs_mono.
      apply le_degs_nth; [rewrite length_upd, length_max_degs; lia|]. intros i Hi.
      rewrite length_upd in Hi. rewrite nth_upd, nth_max_degs by lia. destruct (Nat.eqb_spec i k) as [->|].
      * rewrite Hyk. lia.
      * rewrite HN. destruct (i <? k)%nat; lia.
    + lia.
    + apply HV.
    + exists y'. split; auto. split; auto. split.
      { replace (list_sum (firstn (S k) D)) with (list_sum (firstn k D) + (nth k targets 0 - nth k (degrees y) 0))%nat.
        - eapply drift_trans; eauto.
        - rewrite (firstn_S_nth 0%nat) by lia. rewrite list_sum_app. cbn [list_sum fold_right]. rewrite ND by lia. rewrite Hyk. simpl. lia. }
      split; [rewrite Hd', length_upd; auto|].
      intros j. rewrite Hd', nth_upd by lia. destruct (Nat.eqb_spec j k) as [->|].
      * rewrite Hyk. rewrite (proj2 (Nat.ltb_lt k (S k))) by lia. reflexivity.
      * rewrite HN. destruct (Nat.ltb_spec j k), (Nat.ltb_spec j (S k)); auto; lia.
Qed.

(** ** Sums and differences *)
Definition sum_bound (n1 n2 : nat) (B1 B2 : R) : R :=
  ((1 + / 2 ^ p) * g ^ n1 - 1) * B1 + ((1 + / 2 ^ p) * g ^ n2 - 1) * B2.
Lemma combine_any op n (x rhs : spline V) :
  length (control_points x) = n -> length (control_points rhs) = n ->
  combine_assign op n x rhs = Ok (with_cps x (map2 op (control_points x) (control_points rhs))).
Proof using ov. intros. apply (combine_assign_ok (ov := ov)); auto. Qed.
Lemma combine_err (op : V -> V -> V) (opx : R -> R -> R) (s rhs a b : spline V) n1 n2 B1 B2 :
  (forall x y, pr (op x y) = rnd (opx (pr x) (pr y))) -> opx = Rplus \/ opx = Rminus ->
  wf a -> wf b -> degrees b = degrees a -> length (degrees a) = length (degrees s) -> length (degrees rhs) = length (degrees s) ->
  0 <= B1 -> 0 <= B2 ->
  drift s a n1 B1 -> drift rhs b n2 B2 ->
  let r := with_cps a (map2 op (control_points a) (control_points b)) in
  wf r /\ forall xs, length xs = length (degrees s) -> in_unit_box xs ->
    Rabs (pr (value_at r xs) - opx (pr (value_at s xs)) (pr (value_at rhs xs))) <= sum_bound n1 n2 B1 B2.
Proof using Hp HR M pr_add pr_scale.
  intros Hop Hx Wa Wb Dd La Lr P1 P2 (A1 & A2) (C1 & C2) r.
  pose proof Wa as (_ & _ & _ & LA). pose proof Wb as (_ & _ & _ & LB).
  assert (Wr : wf r) by (apply with_cps_wf; auto; rewrite length_map2; congruence).
  split; auto. intros xs HX HU.
  rewrite fl_nth in A1, C1.
  assert (Ev : forall f h, opx (bezier (degrees a) xs f) (bezier (degrees a) xs h) = bezier (degrees a) xs (fun i => opx (f i) (h i))).
  { intros f h. destruct Hx as [->| ->]; symmetry; [exact (bezier_add (V := R) (degrees a) xs f h)|exact (bezier_sub (V := R) (degrees a) xs f h)]. }
  assert (T : Rabs (pr (value_at r xs) - opx (pr (value_at a xs)) (pr (value_at b xs))) <= / 2 ^ p * (g ^ n1 * B1 + g ^ n2 * B2)).
  { unfold value_at. rewrite !pr_bezier by (unfold r; cbn [with_cps degrees]; congruence). rewrite Dd. unfold r at 1. cbn [with_cps degrees].
    rewrite Ev.
    match goal with |- Rabs (bezier _ _ ?f - bezier _ _ ?h) <= _ =>
      change (Rabs (vsub (V := R) (bezier (degrees a) xs f) (bezier (degrees a) xs h)) <= / 2 ^ p * (g ^ n1 * B1 + g ^ n2 * B2)) end.
    rewrite <- (bezier_sub (V := R)). apply bezier_bound; auto; [congruence|]. intros i Hi. cbn [vsub VOps_scalar ssub SOps_R].
    unfold r. cbn [with_cps control_points]. rewrite (nth_map2 _ _ _ _ v0 v0) by congruence. rewrite Hop.
    eapply Rle_trans; [apply Hr|]. unfold u. apply Rmult_le_compat_l; [apply Hu|].
    specialize (A1 i ltac:(congruence)). specialize (C1 i ltac:(congruence)).
    destruct Hx as [->| ->]; [|unfold Rminus]; (eapply Rle_trans; [apply Rabs_triang|]); rewrite ?Rabs_Ropp; lra. }
  specialize (A2 xs HX HU). specialize (C2 xs ltac:(congruence) HU).
  assert (S2 : Rabs (opx (pr (value_at a xs)) (pr (value_at b xs)) - opx (pr (value_at s xs)) (pr (value_at rhs xs))) <= (g ^ n1 - 1) * B1 + (g ^ n2 - 1) * B2).
  { set (xa := pr (value_at a xs)) in *. set (xb := pr (value_at b xs)) in *. set (ya := pr (value_at s xs)) in *. set (yb := pr (value_at rhs xs)) in *.
    destruct Hx as [->| ->].
    - replace (xa + xb - (ya + yb)) with ((xa - ya) + (xb - yb)) by ring. eapply Rle_trans; [apply Rabs_triang|]. lra.
    - replace (xa - xb - (ya - yb)) with ((xa - ya) + - (xb - yb)) by ring. eapply Rle_trans; [apply Rabs_triang|]. rewrite Rabs_Ropp. lra. }
  replace (pr (value_at r xs) - opx (pr (value_at s xs)) (pr (value_at rhs xs))) with
    ((pr (value_at r xs) - opx (pr (value_at a xs)) (pr (value_at b xs))) +
     (opx (pr (value_at a xs)) (pr (value_at b xs)) - opx (pr (value_at s xs)) (pr (value_at rhs xs)))) by ring.
  eapply Rle_trans; [apply Rabs_triang|]. unfold sum_bound. lra.
Qed.
Lemma elevate_both_drift fuel (s rhs : spline V) B1 B2 :
  wf s -> wf rhs -> length (degrees rhs) = length (degrees s) ->
  (Z.of_nat (list_max (max_degs (degrees s) (degrees rhs))) < 2 ^ Z.of_nat p)%Z ->
  (Z.of_nat (n_coeffs (max_degs (degrees s) (degrees rhs))) < 2 ^ 31)%Z ->
  (list_max (max_degs (degrees s) (degrees rhs)) < fuel)%nat ->
  below (control_points s) B1 -> below (control_points rhs) B2 ->
  exists s' rhs', elevate_all (o := ornd) (ov := ovr) fuel (degrees rhs) s = Ok s' /\
    elevate_all (o := ornd) (ov := ovr) fuel (degrees s') rhs = Ok rhs' /\
    wf s' /\ wf rhs' /\ degrees s' = max_degs (degrees s) (degrees rhs) /\ degrees rhs' = degrees s' /\
    drift s s' (elevations (degrees s) (degrees rhs)) B1 /\ drift rhs rhs' (elevations (degrees rhs) (degrees s)) B2.
Proof using Hp HR M pr_add pr_scale pr_add_r pr_scale_r v0_r.
  intros Hw Hwr HL Ht Hs Hf HB1 HB2. rewrite list_max_max in Hf, Ht by auto.
  destruct (elevate_all_drift fuel (degrees rhs) s B1) as (s' & E & Hw' & Hd & HV); auto; [lia|lia|].
  destruct (elevate_all_drift fuel (degrees s') rhs B2) as (r' & E' & Hwr' & Hd' & HV'); auto.
  - rewrite Hd, length_max_degs; auto.
  - rewrite Hd, list_max_max by auto. lia.
  - rewrite Hd, max_degs_absorb by auto. auto.
  - rewrite Hd, list_max_max by auto. lia.
  - replace (elevations (degrees rhs) (degrees s')) with (elevations (degrees rhs) (degrees s)) in HV'.
    + rewrite Hd, max_degs_absorb, <- Hd in Hd' by auto. exists s', r'. auto 10.
    + rewrite Hd. unfold elevations, max_degs. f_equal. clear - HL. revert HL. generalize (degrees s) (degrees rhs).
      intros l m. revert m. induction l as [|a l IH]; intros [|b m] HL; try discriminate; auto. cbn [map2]. f_equal; [lia|]. apply IH. simpl in HL. lia.
Qed.
Context (pr_sub_r : forall a b, pr (vsub (VOps := ovr) a b) = rnd (pr a - pr b)).
Lemma add_assign_err fuel (s rhs : spline V) B1 B2 :
  wf s -> wf rhs -> length (degrees rhs) = length (degrees s) ->
  (Z.of_nat (list_max (max_degs (degrees s) (degrees rhs))) < 2 ^ Z.of_nat p)%Z ->
  (Z.of_nat (n_coeffs (max_degs (degrees s) (degrees rhs))) < 2 ^ 31)%Z ->
  (list_max (max_degs (degrees s) (degrees rhs)) < fuel)%nat ->
  below (control_points s) B1 -> below (control_points rhs) B2 ->
  (exists r, spline_add_assign (o := ornd) (ov := ovr) fuel s rhs = Ok r /\ wf r /\ degrees r = max_degs (degrees s) (degrees rhs) /\
    forall xs, length xs = length (degrees s) -> in_unit_box xs ->
    Rabs (pr (value_at r xs) - (pr (value_at s xs) + pr (value_at rhs xs))) <=
      sum_bound (elevations (degrees s) (degrees rhs)) (elevations (degrees rhs) (degrees s)) B1 B2) /\
  (exists r, spline_sub_assign (o := ornd) (ov := ovr) fuel s rhs = Ok r /\ wf r /\ degrees r = max_degs (degrees s) (degrees rhs) /\
    forall xs, length xs = length (degrees s) -> in_unit_box xs ->
    Rabs (pr (value_at r xs) - (pr (value_at s xs) - pr (value_at rhs xs))) <=
      sum_bound (elevations (degrees s) (degrees rhs)) (elevations (degrees rhs) (degrees s)) B1 B2).
Proof using Hp HR M pr_add pr_scale pr_add_r pr_scale_r pr_sub_r v0_r.
  intros Hw Hwr HL Ht Hs Hf HB1 HB2. pose proof (below_pos s B1 Hw HB1). pose proof (below_pos rhs B2 Hwr HB2).
  destruct (elevate_both_drift fuel s rhs B1 B2) as (s' & r' & E & E' & Hw' & Hwr' & Hd & Hd' & HV & HV'); auto.
  pose proof Hw' as (_ & Hn' & _ & HL'). pose proof Hwr' as (_ & _ & _ & HLr').
  assert (LL : length (degrees s') = length (degrees s)) by (rewrite Hd, length_max_degs; auto).
  split; [unfold spline_add_assign|unfold spline_sub_assign]; rewrite E; cbn [bind]; rewrite E'; cbn [bind];
    rewrite combine_any by congruence.
  - destruct (combine_err (vadd (VOps := ovr)) Rplus s rhs s' r' (elevations (degrees s) (degrees rhs)) (elevations (degrees rhs) (degrees s)) B1 B2)
      as (Wr & HH); auto. eexists; split; [reflexivity|]. split; [exact Wr|]. split; [exact Hd|exact HH].
  - destruct (combine_err (vsub (VOps := ovr)) Rminus s rhs s' r' (elevations (degrees s) (degrees rhs)) (elevations (degrees rhs) (degrees s)) B1 B2)
      as (Wr & HH); auto. eexists; split; [reflexivity|]. split; [exact Wr|]. split; [exact Hd|exact HH].
Qed.
(** [operator+]: the operands may be swapped. *)
Lemma add_err fuel (s rhs : spline V) B1 B2 :
  wf s -> wf rhs -> length (degrees rhs) = length (degrees s) ->
  (Z.of_nat (list_max (max_degs (degrees s) (degrees rhs))) < 2 ^ Z.of_nat p)%Z ->
  (Z.of_nat (n_coeffs (max_degs (degrees s) (degrees rhs))) < 2 ^ 31)%Z ->
  (list_max (max_degs (degrees s) (degrees rhs)) < fuel)%nat -> (2 <= fuel)%nat ->
  below (control_points s) B1 -> below (control_points rhs) B2 ->
  exists r, spline_add (o := ornd) (ov := ovr) fuel s rhs = Ok r /\ wf r /\ degrees r = max_degs (degrees s) (degrees rhs) /\
    forall xs, length xs = length (degrees s) -> in_unit_box xs ->
    Rabs (pr (value_at r xs) - (pr (value_at s xs) + pr (value_at rhs xs))) <=
      sum_bound (elevations (degrees s) (degrees rhs)) (elevations (degrees rhs) (degrees s)) B1 B2.
Proof using Hp HR M pr_add pr_scale pr_add_r pr_scale_r v0_r.
  intros Hw Hwr HL Ht Hs Hf Hf2 HB1 HB2. pose proof (below_pos s B1 Hw HB1). pose proof (below_pos rhs B2 Hwr HB2).
  destruct (elevate_both_drift fuel s rhs B1 B2) as (s' & r' & E & E' & Hw' & Hwr' & Hd & Hd' & HV & HV'); auto.
  pose proof Hw' as (Hne' & Hn' & Ho' & HL'). pose proof Hwr' as (_ & Hnr' & Hor' & HLr').
  assert (HLs' : length (degrees s') = length (degrees s)).
  { rewrite Hd. apply length_max_degs. auto. }
  unfold spline_add. destruct fuel as [|[|fuel]]; try lia. cbn [spline_add_rec].
  assert (Hcopy : forall t : spline V, wf t -> Spline_deg_points (degrees t) (control_points t) = Ok t).
  { intros t Ht'. rewrite Spline_deg_points_ok by apply Ht'. now rewrite <- wf_eq_mk. }
  rewrite (Hcopy s Hw). cbn [bind].
  destruct (needs_copy_ok s rhs HL) as (b & -> & Hb1 & Hb2). cbn [bind]. rewrite E. cbn [bind].
  destruct b; cbn [negb].
  - rewrite (Hcopy rhs Hwr). cbn [bind].
    destruct (needs_copy_ok rhs s') as (b & -> & Hb1' & Hb2'); [lia|]. cbn [bind].
    rewrite E'. cbn [bind].
    rewrite Hb2' by (rewrite Hd; apply le_max_degs_r; auto). cbn [negb].
    rewrite combine_any by congruence.
    destruct (combine_err (vadd (VOps := ovr)) Rplus rhs s r' s' (elevations (degrees rhs) (degrees s)) (elevations (degrees s) (degrees rhs)) B2 B1)
      as (Wr & HH); auto; [congruence..|]. eexists; split; [reflexivity|]. split; [exact Wr|]. split; [cbn [with_cps degrees]; congruence|].
    intros xs HX HU. specialize (HH xs ltac:(congruence) HU). unfold sum_bound in *.
    rewrite (Rplus_comm (pr (value_at s xs))). lra.
  - specialize (Hb1 eq_refl).
    assert (r' = rhs) as ->.
    { rewrite elevate_all_noop in E'; [congruence|lia|lia|]. rewrite Hd, max_degs_le by auto. apply le_degs_refl. }
    rewrite combine_any by congruence.
    destruct (combine_err (vadd (VOps := ovr)) Rplus s rhs s' rhs (elevations (degrees s) (degrees rhs)) (elevations (degrees rhs) (degrees s)) B1 B2)
      as (Wr & HH); auto. eexists; split; [reflexivity|]. split; [exact Wr|]. split; [exact Hd|exact HH].
Qed.

(** ** Subdivision *)
Lemma pr_dc x f r j : pr (dc (ov := ov) x f r j) = dc (V := R) x (fun i => pr (f i)) r j.
Proof using pr_add pr_scale. revert j; induction r; intros j; cbn [dc]; auto. rewrite pr_add, !pr_scale, !IHr. reflexivity. Qed.
Lemma pr_dc_r x f r j : pr (dc (o := ornd) (ov := ovr) x f r j) = dc (o := ornd) (ov := Vs) x (fun i => pr (f i)) r j.
Proof using pr_add_r pr_scale_r. revert j; induction r; intros j; cbn [dc]; auto. rewrite pr_add_r, !pr_scale_r, !IHr. reflexivity. Qed.
Lemma dc_le x f B r j : 0 <= x <= 1 -> (forall i, (j <= i <= j + r)%nat -> f i <= B) -> dc (V := R) x f r j <= B.
Proof using Hp.
  intros Hx. revert j; induction r; intros j H; cbn [dc]; [apply H; lia|]. cbn [vadd vscale VOps_scalar sadd smul ssub s1 SOps_R].
  assert (A := IHr j ltac:(intros; apply H; lia)). assert (C := IHr (S j) ltac:(intros; apply H; lia)). change R1 with 1.
  apply Rle_trans with ((1 - x) * B + x * B); [|lra]. apply Rplus_le_compat; apply Rmult_le_compat_l; lra.
Qed.
Lemma dc_gamma x f B q r j : 0 <= x <= 1 -> (r <= q)%nat -> (forall i, (j <= i <= j + r)%nat -> Rabs (f i) <= B) ->
  Rabs (dc (o := ornd) (ov := Vs) x f r j - dc (V := R) x f r j) <= gamma p (3 * q) * B.
Proof using Hp HR.
  intros Hx Hq H. destruct (dc_err rnd u Hu Hr x f f (fun i => Rabs (f i)) r Hx 0 j) as (E & _); [intros; apply Er_x|].
  eapply Rle_trans; [exact E|]. unfold gamma. fold u. rewrite Nat.add_0_l.
  assert (N : 0 <= dc (V := R) x (fun i => Rabs (f i)) r j) by (apply dc_nonneg; auto; intros; apply Rabs_pos).
  assert (L : dc (V := R) x (fun i => Rabs (f i)) r j <= B) by (apply dc_le; auto).
  assert (P := u_pow u Hu (3 * r)). assert (P2 := u_pow_le u Hu (3 * r) (3 * q) ltac:(lia)).
  apply Rmult_le_compat; [lra|exact N|lra|exact L].
Qed.
Lemma split_err (s : spline V) x k B : wf s -> (k < length (degrees s))%nat -> 0 < x < 1 -> below (control_points s) B ->
  exists l r l0 r0, SplitAtPosition (o := ornd) (ov := ovr) s x k = Ok [l; r] /\ SplitAtPosition (ov := ov) s x k = Ok [l0; r0] /\
    (wf l /\ wf r /\ wf l0 /\ wf r0) /\ (degrees l = degrees s /\ degrees r = degrees s /\ degrees l0 = degrees s /\ degrees r0 = degrees s) /\
    (forall i, (i < n_coeffs (degrees s))%nat ->
      Rabs (pr (nth i (control_points l) v0) - pr (nth i (control_points l0) v0)) <= gamma p (3 * nth k (degrees s) 0%nat) * B /\
      Rabs (pr (nth i (control_points r) v0) - pr (nth i (control_points r0) v0)) <= gamma p (3 * nth k (degrees s) 0%nat) * B) /\
    forall xs, length xs = length (degrees s) -> in_unit_box xs ->
      Rabs (pr (value_at l xs) - pr (value_at s (upd_list xs k (x * nth k xs 0)))) <= gamma p (3 * nth k (degrees s) 0%nat) * B /\
      Rabs (pr (value_at r xs) - pr (value_at s (upd_list xs k (x + (1 - x) * nth k xs 0)))) <= gamma p (3 * nth k (degrees s) 0%nat) * B.
Proof using Hp HR M pr_add pr_scale pr_add_r pr_scale_r v0_r.
  intros Hw Hk Hx HB. set (q := nth k (degrees s) 0%nat). set (off := n_coeffs (firstn k (degrees s))).
  set (cnt := n_coeffs (skipn (S k) (degrees s))).
  assert (H0 : slt (s0 (SOps := SOps_R)) x) by (unfold slt; cbn [sltb s0 SOps_R]; destruct (Rlt_dec R0 x) as [|N]; auto; change R0 with 0 in N; lra).
  assert (H1 : slt x (s1 (SOps := SOps_R))) by (unfold slt; cbn [sltb s1 SOps_R]; destruct (Rlt_dec x R1) as [|N]; auto; change R1 with 1 in N; lra).
  assert (H0r : slt (H := ornd) (s0 (SOps := ornd)) x) by (unfold slt; cbn [sltb s0 SOps_rnd]; destruct (Rlt_dec 0 x) as [|N]; auto; lra).
  assert (H1r : slt (H := ornd) x (s1 (SOps := ornd))) by (unfold slt; cbn [sltb s1 SOps_rnd]; destruct (Rlt_dec x 1) as [|N]; auto; lra).
  destruct (SplitAtPosition_raw (o := ornd) (ov := ovr) s x k Hw Hk H0r H1r) as (c1 & c2 & E & L1 & L2 & N1).
  destruct (SplitAtPosition_raw (ov := ov) s x k Hw Hk H0 H1) as (d1 & d2 & E' & L1' & L2' & N2).
  destruct (Split_values s x k Hw Hk H0 H1) as (l0 & r0 & E2 & Wl & Wr & Dl & Dr & HV).
  rewrite E' in E2. injection E2 as El Er'. fold q off cnt in N1, N2.
  assert (Hoff : (0 < off)%nat) by apply n_coeffs_pos.
  assert (Etot : n_coeffs (degrees s) = (off * (q + 1) * cnt)%nat).
  { rewrite (n_coeffs_split (degrees s) k), (skipn_cons_nth 0%nat (degrees s) k) by auto.
    rewrite n_coeffs_cons. fold q off cnt. lia. }
  assert (Lc : length (control_points s) = n_coeffs (degrees s)) by apply Hw.
  rewrite fl_nth in HB. rewrite Lc in HB.
  assert (Key : forall i, (i < n_coeffs (degrees s))%nat ->
    Rabs (pr (nth i c1 v0) - pr (nth i d1 v0)) <= gamma p (3 * q) * B /\ Rabs (pr (nth i c2 v0) - pr (nth i d2 v0)) <= gamma p (3 * q) * B).
  { intros i Hi. assert (HC : exists a j m, (a < off)%nat /\ (j <= q)%nat /\ (m < cnt)%nat /\ i = (a + off * (j + (q + 1) * m))%nat).
    { exists (i mod off)%nat, (i / off mod (q + 1))%nat, (i / off / (q + 1))%nat.
      split; [apply Nat.mod_upper_bound; lia|]. split; [pose proof (Nat.mod_upper_bound (i / off) (q + 1)); lia|]. split.
      - apply Nat.div_lt_upper_bound; [lia|]. apply Nat.div_lt_upper_bound; [lia|]. rewrite Etot in Hi. nia.
      - rewrite (Nat.div_mod i off) at 1 by lia. rewrite (Nat.div_mod (i / off) (q + 1)) at 1 by lia. lia. }
    destruct HC as (a & j & m & Ha & Hj & Hm & ->).
    destruct (N1 a j m Ha Hj Hm) as (A1 & A2). destruct (N2 a j m Ha Hj Hm) as (B1 & B2).
    rewrite v0_r in A1, A2. rewrite A1, A2, B1, B2, !pr_dc_r, !pr_dc.
    assert (Bd : forall j0, (j0 <= q)%nat -> Rabs (pr (nth (a + off * (j0 + (q + 1) * m)) (control_points s) v0)) <= B).
    { intros j0 Hj0. apply HB. rewrite Etot.
      assert (off * ((q + 1) * S m) <= off * ((q + 1) * cnt))%nat by (apply Nat.mul_le_mono_l, Nat.mul_le_mono_l; lia). nia. }
    split; apply dc_gamma; try lra; try lia; intros i Hi'; apply Bd; lia. }
  assert (Wl' : wf (with_cps s c1)) by (apply with_cps_wf; auto; congruence).
  assert (Wr' : wf (with_cps s c2)) by (apply with_cps_wf; auto; congruence).
  exists (with_cps s c1), (with_cps s c2), l0, r0. split; [exact E|]. split; [rewrite E'; congruence|].
  split; [auto|]. split; [auto|]. subst l0 r0. split; [exact Key|].
  intros xs HX HU. destruct (HV xs HX) as (V1 & V2). cbn [smul sadd ssub s0 s1 SOps_R] in V1, V2. change R0 with 0 in V1, V2. change R1 with 1 in V1, V2.
  rewrite <- V1, <- V2. split; apply close_values; auto; intros i Hi; apply Key; auto.
Qed.

(** ** Derivatives *)
Lemma pr_racc h k n : pr (racc (ov := ov) h k n) = racc (V := R) (fun j => pr (h j)) k n.
Proof using pr_add pr_scale. induction n; cbn [racc]; auto. rewrite pr_add, pr_scale, IHn. reflexivity. Qed.
Lemma pr_racc_r h k n : pr (racc (o := ornd) (ov := ovr) h k n) = racc (o := ornd) (ov := Vs) (fun j => pr (h j)) k n.
Proof using pr_add_r pr_scale_r. induction n; cbn [racc]; auto. rewrite pr_add_r, pr_scale_r, IHn. reflexivity. Qed.
Lemma racc_ext {T W} {o' : SOps T} {ow : VOps T W} (h h' : nat -> W) k n : (forall j, h j = h' j) -> racc h k n = racc h' k n.
Proof using. intros H. induction n; cbn [racc]; auto. rewrite IHn, H. reflexivity. Qed.
Lemma pr_rGiter ks degs G n : forall mi, pr (rGiter (ov := ov) ks degs G n mi) = rGiter (V := R) ks degs (fun mi => pr (G mi)) n mi.
Proof using pr_add pr_scale.
  induction n; intros mi; cbn [rGiter]; auto. unfold rdstep. destruct (nth n ks 0 =? 0)%nat; auto.
  rewrite pr_scale, pr_racc. cbn [vscale VOps_scalar smul SOps_R]. f_equal. apply racc_ext. intros j. apply IHn.
Qed.
Lemma pr_rGiter_r ks degs G n : forall mi,
  pr (rGiter (o := ornd) (ov := ovr) ks degs G n mi) = rGiter (o := ornd) (ov := Vs) ks degs (fun mi => pr (G mi)) n mi.
Proof using pr_add_r pr_scale_r.
  induction n; intros mi; cbn [rGiter]; auto. unfold rdstep. destruct (nth n ks 0 =? 0)%nat; auto.
  rewrite pr_scale_r, pr_racc_r. cbn [vscale VOps_scalar smul SOps_rnd]. do 2 f_equal. apply racc_ext. intros j. apply IHn.
Qed.
Lemma Er_fact q k : (0 < k)%nat -> Er ((1 + u) ^ (2 * k - 1)) (rfact (o := ornd) q k) (rfact (T := R) q k) (falling q k) /\ rfact (T := R) q k = falling q k.
Proof using Hp HR.
  assert (S1 : forall n, Er ((1 + u) ^ 1) (sofnat (H := ornd) n) (INR n) (INR n)).
  { intros n. unfold sofnat. cbn [sofN SOps_rnd]. rewrite nat_N_Z, <- INR_IZR_INZ. apply Er_r, Er_xp, pos_INR. }
  intros Hk. induction k as [|k IH]; [lia|]. destruct k as [|k].
  - cbn [rfact falling]. rewrite sofnat_INR, Rmult_1_l, Nat.sub_0_r. split; [|reflexivity]. simpl (2 * 1 - 1)%nat. apply S1.
  - destruct IH as (IH1 & IH2); [lia|].
    change (rfact (o := ornd) q (S (S k))) with (rnd (rfact (o := ornd) q (S k) * sofnat (H := ornd) (q - S k))).
    change (rfact (T := R) q (S (S k))) with (rfact (T := R) q (S k) * sofnat (q - S k))%R.
    change (falling q (S (S k))) with (falling q (S k) * INR (q - S k)). rewrite sofnat_INR. split; [|now rewrite IH2].
    replace (2 * S (S k) - 1)%nat with (S ((2 * S k - 1) + 1)) by lia. apply Er_r. apply Er_m; auto.
Qed.
Lemma sgn_R n : sgn (T := R) n = 1 \/ sgn (T := R) n = -1.
Proof using Hp. unfold sgn. destruct (Nat.even n); cbn [s1 sopp SOps_R]; change R1 with 1; lra. Qed.
Lemma sgn_rnd n : sgn (o := ornd) n = sgn (T := R) n.
Proof using Hp. unfold sgn. destruct (Nat.even n); cbn [s1 sopp SOps_R SOps_rnd]; change R1 with 1; reflexivity. Qed.
Lemma Er_sgn j n y x A : Er ((1 + u) ^ j) y x A -> Er ((1 + u) ^ j) (sgn (T := R) n * y) (sgn (T := R) n * x) A.
Proof using Hp.
  intros H. replace A with (1 * A) by ring. apply (Er_m 0 j); auto. destruct (sgn_R n) as [->| ->].
  - apply (Er_weak _ _ _ (Rabs 1)); [simpl; lra|rewrite Rabs_right; lra|apply Er_x].
  - apply (Er_weak _ _ _ (Rabs (-1))); [simpl; lra|rewrite Rabs_left; lra|apply Er_x].
Qed.
Fixpoint bsum (k n : nat) : R := match n with O => 1 | S n' => bsum k n' + IZR (Z.of_N (binom k n)) end.
Lemma bsum_pow k : bsum k k = 2 ^ k.
Proof using Hp.
  assert (Step : forall k n, bsum (S k) (S n) = bsum k n + bsum k (S n)).
  { intros k' n. induction n as [|n IH]; cbn [bsum].
    - rewrite binom_SS, N2Z.inj_add, plus_IZR, binom_n_0. simpl. lra.
    - cbn [bsum] in IH. rewrite IH. rewrite binom_SS, N2Z.inj_add, plus_IZR. lra. }
  induction k as [|k IH]; [reflexivity|]. rewrite Step. cbn [bsum]. rewrite binom_gt by lia. rewrite IH. simpl. lra.
Qed.
Lemma racc_err h' h A k K n : (n <= k)%nat -> (forall j, Er ((1 + u) ^ K) (h' j) (h j) A) ->
  Er ((1 + u) ^ (K + 3 + n)) (racc (o := ornd) (ov := Vs) h' k n) (racc (V := R) h k n) (bsum k n * A).
Proof using Hp HR.
  intros Hn H. induction n as [|n IH].
  - cbn [racc bsum]. rewrite Rmult_1_l. apply (Er_up K); [lia|]. apply H.
  - cbn [racc bsum vadd vscale VOps_scalar sadd smul sofN SOps_R SOps_rnd]. replace (K + 3 + S n)%nat with (S (K + 3 + n)) by lia.
    apply Er_r. rewrite Rmult_plus_distr_r. apply Er_add; [apply IH; lia|]. apply (Er_up (S (2 + K))); [lia|].
    apply Er_r. apply (Er_m 2 K); auto. apply Er_r. rewrite sgn_rnd. apply Er_sgn. apply Er_r. apply Er_xp. apply IZR_le. lia.
Qed.
Lemma falling_nonneg q k : 0 <= falling q k.
Proof using Hp. induction k; cbn [falling]; [lra|]. apply Rmult_le_pos; auto. apply pos_INR. Qed.
Lemma derivative_scale_app d1 d2 k1 k2 : length d1 = length k1 ->
  derivative_scale (d1 ++ d2) (k1 ++ k2) = derivative_scale d1 k1 * derivative_scale d2 k2.
Proof using Hp.
  revert k1; induction d1 as [|a d1 IH]; intros [|b k1] H; simpl in H; try discriminate; cbn [app derivative_scale]; [lra|].
  rewrite IH by lia. ring.
Qed.
Lemma derivative_roundings_app k1 k2 : derivative_roundings (k1 ++ k2) = (derivative_roundings k1 + derivative_roundings k2)%nat.
Proof using. unfold derivative_roundings. rewrite map_app, list_sum_app. reflexivity. Qed.
Lemma firstn_snoc {A} (d : A) l n : (n < length l)%nat -> firstn (S n) l = firstn n l ++ [nth n l d].
Proof using Hp.
  revert n; induction l as [|a l IH]; intros n H; simpl in H; [lia|]. destruct n; [reflexivity|].
  cbn [firstn nth app]. rewrite <- IH by lia. reflexivity.
Qed.
Lemma rGiter_err ks degs G B n : length ks = length degs -> (n <= length degs)%nat -> (forall mi, Rabs (G mi) <= B) -> forall mi,
  Er ((1 + u) ^ derivative_roundings (firstn n ks)) (rGiter (o := ornd) (ov := Vs) ks degs G n mi) (rGiter (V := R) ks degs G n mi)
     (derivative_scale (firstn n degs) (firstn n ks) * B).
Proof using Hp HR.
  intros HL Hn HG. induction n as [|n IH]; intros mi.
  - cbn [firstn derivative_scale]. rewrite Rmult_1_l. simpl (derivative_roundings []). cbn [rGiter].
    apply (Er_weak _ _ _ (Rabs (G mi))); [simpl; lra|apply HG|apply Er_x].
  - rewrite (firstn_snoc 0%nat ks n), (firstn_snoc 0%nat degs n) by lia.
    rewrite derivative_scale_app, derivative_roundings_app by (rewrite !firstn_length; lia).
    cbn [derivative_scale]. cbn [rGiter]. unfold rdstep. unfold derivative_roundings at 2. cbn [map list_sum fold_right].
    set (k := nth n ks 0%nat). destruct (Nat.eqb_spec k 0) as [->|Hk].
    + cbn [falling pow]. rewrite !Rmult_1_r, Nat.add_0_r. apply IH. lia.
    + set (q := nth n degs 0%nat). set (K := derivative_roundings (firstn n ks)) in *.
      set (A := derivative_scale (firstn n degs) (firstn n ks)) in *.
      cbn [vscale VOps_scalar smul SOps_R SOps_rnd].
      replace (K + (3 * k + 4 + 0))%nat with (S (2 * k + (K + 3 + k))) by lia.
      replace (A * (falling q k * 2 ^ k * 1) * B) with (falling q k * (bsum k k * (A * B))) by (rewrite bsum_pow; ring).
      apply Er_r. apply Er_m.
      * replace (2 * k)%nat with (S (2 * k - 1)) by lia. apply Er_r. rewrite sgn_rnd. apply Er_sgn. apply Er_fact. lia.
      * apply (racc_err _ _ (A * B) k K k); [lia|]. intros j. apply IH. lia.
Qed.
Lemma derivative_err MAXB (s : spline V) ks B : (MAXB <= 68)%nat -> wf s -> length ks = length (degrees s) -> Forall2 le ks (degrees s) ->
  Forall (fun k => (k < MAXB)%nat) ks -> below (control_points s) B ->
  exists r r0, DerivativeWRT (o := ornd) (ov := ovr) MAXB s ks = Ok r /\ DerivativeWRT (ov := ov) MAXB s ks = Ok r0 /\
    wf r /\ wf r0 /\ degrees r = map2 Nat.sub (degrees s) ks /\ degrees r0 = map2 Nat.sub (degrees s) ks /\
    (forall i, (i < n_coeffs (degrees r0))%nat ->
      Rabs (pr (nth i (control_points r) v0) - pr (nth i (control_points r0) v0)) <=
        gamma p (derivative_roundings ks) * (derivative_scale (degrees s) ks * B)) /\
    forall xs, length xs = length (degrees s) -> in_unit_box xs ->
      Rabs (pr (value_at r xs) - pr (value_at r0 xs)) <= gamma p (derivative_roundings ks) * (derivative_scale (degrees s) ks * B).
Proof using Hp HR M pr_add pr_scale pr_add_r pr_scale_r v0_r.
  intros HMB Hw HL Hle HM HB.
  destruct (DerivativeWRT_raw (o := ornd) (ov := ovr) MAXB HMB s ks Hw HL Hle HM) as (r & E & Wr & Dr & N).
  destruct (DerivativeWRT_raw (ov := ov) MAXB HMB s ks Hw HL Hle HM) as (r0 & E0 & Wr0 & Dr0 & N0).
  exists r, r0. do 6 (split; [assumption|]).
  assert (P0 : 0 <= B).
  { rewrite fl_nth in HB. specialize (HB 0%nat). eapply Rle_trans; [apply Rabs_pos|apply HB]. rewrite (proj2 (proj2 (proj2 Hw))). apply n_coeffs_pos. }
  assert (Z : pr v0 = 0).
  { assert (A := pr_add (v0 (VOps := ov)) (v0 (VOps := ov))). rewrite (vm_0 (VMod := M)) in A. lra. }
  assert (HG : forall mi, Rabs (pr (nth (position (degrees s) mi) (control_points s) v0)) <= B).
  { intros mi. destruct (Nat.lt_ge_cases (position (degrees s) mi) (length (control_points s))) as [Hi|Hi].
    - rewrite fl_nth in HB. apply HB; auto.
    - rewrite nth_overflow by auto. rewrite Z, Rabs_R0. auto. }
  assert (Key : forall i, (i < n_coeffs (degrees r0))%nat ->
      Rabs (pr (nth i (control_points r) v0) - pr (nth i (control_points r0) v0)) <=
        gamma p (derivative_roundings ks) * (derivative_scale (degrees s) ks * B)).
  { intros i Hi. rewrite Dr0 in Hi. set (nd := map2 Nat.sub (degrees s) ks) in *.
    rewrite <- (position_index_of nd i Hi). rewrite N0 by (apply index_of_valid; auto).
    specialize (N (index_of nd i) ltac:(apply index_of_valid; auto)). rewrite v0_r in N. rewrite N, pr_rGiter, pr_rGiter_r.
    destruct (rGiter_err ks (degrees s) (fun mi => pr (nth (position (degrees s) mi) (control_points s) v0)) B (length (degrees s))
      HL (le_n _) HG (index_of nd i)) as (K & _).
    rewrite !firstn_all in K. replace (firstn (length (degrees s)) ks) with ks in K by (rewrite <- HL; symmetry; apply firstn_all). exact K. }
  split; [exact Key|]. intros xs HX HU. apply close_values; auto; try congruence.
  rewrite Dr0, length_map2; auto.
Qed.
End Gen.
