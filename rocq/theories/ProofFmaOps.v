(** Error propagation through the operations when multiplications and additions may be contracted. *)
From Coq Require Import Arith Lia List ZArith NArith Bool Reals Lra Psatz.
From Verif Require Import Prelude Scalar Spec SpecSpline Sums Coord ModelBasis ModelSpline
  ModelRound SpecRound ProofIndex ProofBasis ProofEval ProofParam ProofParamOps ProofCasteljau ProofRound ProofRoundEval ProofRaw ProofElevate ProofSplit ProofDeriv ProofDerivSpline
  ProofArith ClaimsU ProofRoundOps ModelFma ProofFma ModelFmaOps.
Import ListNotations.
Local Open Scope R_scope.

Section Gen.
Context (p : nat) (rnd : R -> R) (Hp : (0 < p)%nat) (HR : nearest p rnd).
Let u := / 2 ^ p.
Let Hu : 0 <= u := unit_pos p.
Let Hr : forall x, Rabs (rnd x - x) <= u * Rabs x := nearest_error p rnd Hp HR.
Notation ot := (SOps_term rnd).
Notation mean := (means rnd).
Notation argr := (arg rnd).
Notation Vsw sw := (VOps_sw rnd sw).

(** All values of [t], rounded or not, are within [e] of [x]. *)
Definition near (e : R) (t : term) (x : R) : Prop := forall v, argr t v -> Rabs (v - x) <= e.
Lemma near_le e e' t x : e <= e' -> near e t x -> near e' t x.
Proof using. intros L H v Hv. specialize (H v Hv). lra. Qed.
Lemma near_num x : near 0 (Num x) x.
Proof using. intros v Hv. apply num_inv in Hv. subst. replace (x - x) with 0 by ring. rewrite Rabs_R0. lra. Qed.
Lemma near_pos e t x v : near e t x -> argr t v -> 0 <= e.
Proof using. intros H Hv. specialize (H v Hv). pose proof (Rabs_pos (v - x)). lra. Qed.

Lemma sofnat_term n : (Z.of_nat n < 2 ^ Z.of_nat p)%Z -> sofnat (H := ot) n = Num (INR n).
Proof using Hp HR. intros H. unfold sofnat. cbn [sofN SOps_term]. rewrite nat_N_Z, <- INR_IZR_INZ. f_equal. apply (ofnat_exact p rnd Hp HR). auto. Qed.

Lemma relev_fma sw q f f' M e i : (Z.of_nat (q + 1) < 2 ^ Z.of_nat p)%Z -> (i <= q + 1)%nat -> 0 <= e ->
  (forall j, (j <= q)%nat -> Rabs (f j) <= M /\ near e (f' j) (f j)) ->
  near (e + gamma p 5 * (3 * (M + e))) (relev (o := ot) (ov := Vsw sw) q f' i) (relev (V := R) q f i) /\ Rabs (relev (V := R) q f i) <= M.
Proof using Hp HR.
  intros Hq Hi He HM.
  assert (M0 : 0 <= M) by (eapply Rle_trans; [apply Rabs_pos|apply (HM 0%nat); lia]).
  assert (G := gamma_pos p Hp 5).
  assert (Z : forall j, (j <= q)%nat -> near (e + gamma p 5 * (3 * (M + e))) (f' j) (f j)).
  { intros j Hj. apply near_le with e; [|apply HM; auto]. assert (0 <= gamma p 5 * (3 * (M + e))) by (apply Rmult_le_pos; lra). lra. }
  unfold relev. destruct (Nat.eqb_spec i 0) as [->|Hi0]; [split; [apply Z|apply HM]; lia|].
  destruct (Nat.eqb_spec i (q + 1)) as [->|Hi1]; [split; [apply Z|apply HM]; lia|].
  rewrite !sofnat_INR, !sofnat_term by lia.
  cbn [smul sadd sdiv ssub s1 SOps_R SOps_term vadd vscale VOps_scalar]. change R1 with 1.
  set (a := INR i). set (b := INR (q + 1)).
  assert (B0 : 0 < b) by (apply lt_0_INR; lia). assert (A0 : 0 <= a) by apply pos_INR.
  assert (AB : a <= b) by (apply le_INR; lia).
  assert (IB : 0 < / b) by (apply Rinv_0_lt_compat; auto).
  assert (F0 : 0 <= a * (1 / b) <= 1).
  { unfold Rdiv. rewrite Rmult_1_l. split; [apply Rmult_le_pos; lra|]. apply (Rmult_le_reg_r b); auto. rewrite Rmult_assoc, Rinv_l by lra. lra. }
  assert (E1 : Er ((1 + u) ^ 1) (rnd (1 / b)) (1 / b) (1 / b)) by (apply (Er_r p rnd Hp HR), Er_xp; unfold Rdiv; lra).
  set (fe := a * (1 / b)) in *.
  destruct (HM i ltac:(lia)) as (Ma & Na). destruct (HM (i - 1)%nat ltac:(lia)) as (Mb & Nb).
  split.
  - (* the factor, rounded once or twice *)
    assert (Q : forall v, mean (Div (Num 1) (Num b)) v -> v = rnd (1 / b)).
    { intros v H. apply div_inv in H. destruct H as (x & y & Hx & Hy & _ & ->). apply num_mean in Hx, Hy. now subst. }
    assert (F : forall v, argr (Mul (Num a) (Div (Num 1) (Num b))) v -> Er ((1 + u) ^ 2) v fe fe).
    { intros v H. apply mul_inv in H. destruct H as (x & y & Hx & Hy & Hv). apply num_mean in Hx. apply Q in Hy. subst x y.
      assert (Er ((1 + u) ^ 1) (a * rnd (1 / b)) fe fe) by (apply (Er_m p Hp 0 1); auto; apply Er_xp; auto).
      destruct Hv as [->| ->]; [apply (Er_up p Hp 1); auto|apply (Er_r p rnd Hp HR); auto]. }
    intros v Hv. apply add_arg in Hv. apply add_inv in Hv. destruct Hv as (P & P' & HP & HP' & ->).
    apply scale_inv in HP, HP'. destruct HP as (c & x & Hc & Hx & EP), HP' as (c' & y & Hc' & Hy & EP').
    apply sub_inv in Hc. destruct Hc as (o1 & fr & Ho & Hfr & ->). apply num_inv in Ho. subst o1.
    apply F in Hfr. assert (F' := F c' (or_introl Hc')).
    specialize (Na x (or_introl Hx)). specialize (Nb y (or_introl Hy)).
    assert (E3 : Er ((1 + u) ^ 3) (rnd (1 - fr)) (1 - fe) (1 + fe)).
    { apply (Er_r p rnd Hp HR). apply Er_sub; auto. apply (Er_up p Hp 0); [lia|]. apply Er_xp. lra. }
    assert (T1 : Er ((1 + u) ^ 4) P ((1 - fe) * x) ((1 + fe) * Rabs x)).
    { assert (Er ((1 + u) ^ 3) (rnd (1 - fr) * x) ((1 - fe) * x) ((1 + fe) * Rabs x)) by (apply (Er_m p Hp 3 0); auto; apply Er_x).
      destruct EP as [->| ->]; [apply (Er_up p Hp 3); auto|apply (Er_r p rnd Hp HR); auto]. }
    assert (T2 : Er ((1 + u) ^ 4) P' (fe * y) (fe * Rabs y)).
    { apply (Er_up p Hp 3); [lia|]. assert (Er ((1 + u) ^ 2) (c' * y) (fe * y) (fe * Rabs y)) by (apply (Er_m p Hp 2 0); auto; apply Er_x).
      destruct EP' as [->| ->]; [apply (Er_up p Hp 2); auto|apply (Er_r p rnd Hp HR); auto]. }
    assert (Mx : Rabs x <= M + e).
    { replace x with ((x - f i) + f i) by ring. eapply Rle_trans; [apply Rabs_triang|]. lra. }
    assert (My : Rabs y <= M + e).
    { replace y with ((y - f (i - 1)%nat) + f (i - 1)%nat) by ring. eapply Rle_trans; [apply Rabs_triang|]. lra. }
    pose proof (Rabs_pos x) as Pa. pose proof (Rabs_pos y) as Pb.
    assert (T3 : Er ((1 + u) ^ 5) (rnd (P + P')) ((1 - fe) * x + fe * y) (3 * (M + e))).
    { apply (Er_r p rnd Hp HR). eapply Er_weak; [apply (u_pow u Hu)| |apply Er_add; [exact T1|exact T2]]. nra. }
    destruct T3 as (T3 & _). change ((1 + u) ^ 5 - 1) with (gamma p 5) in T3.
    replace (rnd (P + P') - ((1 - fe) * f i + fe * f (i - 1)%nat)) with
      ((rnd (P + P') - ((1 - fe) * x + fe * y)) + ((1 - fe) * (x - f i) + fe * (y - f (i - 1)%nat))) by ring.
    eapply Rle_trans; [apply Rabs_triang|].
    assert (T4 : Rabs ((1 - fe) * (x - f i) + fe * (y - f (i - 1)%nat)) <= e).
    { eapply Rle_trans; [apply Rabs_triang|]. rewrite !Rabs_mult, (Rabs_right (1 - fe)), (Rabs_right fe) by lra. nra. }
    lra.
  - eapply Rle_trans; [apply Rabs_triang|]. rewrite !Rabs_mult, (Rabs_right (1 - fe)), (Rabs_right fe) by lra. nra.
Qed.

(** ** Any kind of control point, seen through one coordinate *)
Context {V W : Type} {ov : VOps R V} {M : VMod R V} {ow : VOps term W} (sw : bool) (pr : V -> R) (prt : W -> term).
Context (pr_add : forall a b, pr (vadd (VOps := ov) a b) = pr a + pr b)
        (pr_scale : forall c a, pr (vscale (VOps := ov) c a) = c * pr a)
        (pt_add : forall a b, prt (vadd (VOps := ow) a b) = Add (prt a) (prt b))
        (pt_sub : forall a b, prt (vsub (VOps := ow) a b) = Sub (prt a) (prt b))
        (pt_scale : forall c a, prt (vscale (VOps := ow) c a) = vscale (VOps := Vsw sw) c (prt a)).

Lemma pr_relev_t q f i : prt (relev (o := ot) (ov := ow) q f i) = relev (o := ot) (ov := Vsw sw) q (fun j => prt (f j)) i.
Proof using pt_add pt_scale.
  unfold relev. destruct (i =? 0)%nat; auto. destruct (i =? q + 1)%nat; auto. rewrite pt_add, !pt_scale. reflexivity.
Qed.
Lemma pr_dc_t x f r j : prt (dc (o := ot) (ov := ow) x f r j) = dc (o := ot) (ov := Vsw sw) x (fun i => prt (f i)) r j.
Proof using pt_add pt_scale. revert j; induction r; intros j; cbn [dc]; auto. rewrite pt_add, !pt_scale, !IHr. reflexivity. Qed.

Definition within (e : R) (t : spline W) (s : spline V) : Prop :=
  forall i, (i < n_coeffs (degrees s))%nat -> near e (prt (nth i (control_points t) v0)) (pr (nth i (control_points s) v0)).
(** [t] has the shape of [x] and all its values are within [e] of [x], which has the values of [s]. *)
Record track (s : spline V) (t : spline W) (x : spline V) (e B : R) : Prop := {
  tr_wt : wf t;
  tr_wx : wf x;
  tr_deg : degrees t = degrees x;
  tr_len : length (degrees x) = length (degrees s);
  tr_same : same_values s x;
  tr_below : below pr (control_points x) B;
  tr_near : within e t x
}.
Lemma elevate_track s (t : spline W) (x : spline V) k e B : track s t x e B -> 0 <= e -> (k < length (degrees x))%nat ->
  (Z.of_nat (nth k (degrees x) 0%nat + 1) < 2 ^ Z.of_nat p)%Z ->
  (Z.of_nat (n_coeffs (upd_list (degrees x) k (S (nth k (degrees x) 0%nat)))) < 2 ^ 31)%Z ->
  exists t' x', OrderElevate (o := ot) (ov := ow) t k = Ok t' /\ OrderElevate (ov := ov) x k = Ok x' /\
    degrees x' = upd_list (degrees x) k (S (nth k (degrees x) 0%nat)) /\ track s t' x' (e + gamma p 5 * (3 * (B + e))) B.
Proof using Hp HR M pr_add pr_scale pt_add pt_scale.
  intros [Wt Wx Dtx Ltx SVx HB HN] He Hk Hq Hsz. set (q := nth k (degrees x) 0%nat) in *.
  assert (Es : S q = (q + 1)%nat) by lia. rewrite Es in *.
  assert (Z1 : seqb (SOps := ot) (sofnat (H := ot) (q + 1)) (s0 (SOps := ot)) = false).
  { rewrite sofnat_term by lia. cbn [seqb s0 SOps_term]. destruct (Req_EM_T (INR (q + 1)) 0) as [E|]; auto.
    exfalso. assert (0 < INR (q + 1)) by (apply lt_0_INR; lia). lra. }
  assert (Z2 : seqb (sofnat (q + 1)) (s0 : R) = false).
  { rewrite sofnat_INR. cbn [seqb s0 SOps_R]. destruct (Req_EM_T (INR (q + 1)) R0) as [E|]; auto.
    exfalso. assert (0 < INR (q + 1)) by (apply lt_0_INR; lia). change R0 with 0 in E. lra. }
  destruct (OrderElevate_step x k Wx Hk) as (e0 & E0 & We0 & De0 & SV). { fold q. rewrite Es. exact Hsz. }
  fold q in De0. rewrite Es in De0.
  pose proof (OrderElevate_raw (o := ot) (ov := ow) t k Wt) as E. rewrite Dtx in E. fold q in E. specialize (E Hk Z1 Hsz).
  pose proof (OrderElevate_raw (ov := ov) x k Wx Hk Z2 Hsz) as E1. fold q in E1.
  rewrite E0 in E1. injection E1 as E1.
  set (degs' := upd_list (degrees x) k (q + 1)%nat) in *. set (off := n_coeffs (firstn k (degrees x))) in *.
  assert (Hoff : (0 < off)%nat) by apply n_coeffs_pos.
  set (cnt := n_coeffs (skipn (S k) (degrees x))).
  assert (Etot : n_coeffs (degrees x) = (off * (q + 1) * cnt)%nat).
  { rewrite (n_coeffs_split (degrees x) k), (skipn_cons_nth 0%nat (degrees x) k) by auto.
    rewrite n_coeffs_cons. fold q off cnt. lia. }
  assert (Etot' : n_coeffs degs' = (off * (q + 2) * cnt)%nat).
  { unfold degs'. rewrite upd_split by auto. rewrite n_coeffs_app, n_coeffs_cons. fold off cnt. lia. }
  assert (Lc : length (control_points x) = n_coeffs (degrees x)) by apply Wx.
  rewrite (fl_nth (ov := ov)) in HB. rewrite Lc in HB.
  assert (HC : forall i, (i < n_coeffs degs')%nat -> exists a j m, (a < off)%nat /\ (j <= q + 1)%nat /\ (m < cnt)%nat /\ i = (a + off * (j + (q + 2) * m))%nat).
  { intros i Hi. exists (i mod off)%nat, (i / off mod (q + 2))%nat, (i / off / (q + 2))%nat.
    split; [apply Nat.mod_upper_bound; lia|]. split; [pose proof (Nat.mod_upper_bound (i / off) (q + 2)); lia|]. split.
    - apply Nat.div_lt_upper_bound; [lia|]. apply Nat.div_lt_upper_bound; [lia|]. rewrite Etot' in Hi. nia.
    - rewrite (Nat.div_mod i off) at 1 by lia. rewrite (Nat.div_mod (i / off) (q + 2)) at 1 by lia. lia. }
  assert (Key : forall i, (i < n_coeffs degs')%nat ->
    near (e + gamma p 5 * (3 * (B + e))) (prt (nth i (relev_points (o := ot) (ov := ow) off q (n_coeffs degs') (control_points t)) v0))
          (pr (nth i (relev_points (ov := ov) off q (n_coeffs degs') (control_points x)) v0)) /\
    Rabs (pr (nth i (relev_points (ov := ov) off q (n_coeffs degs') (control_points x)) v0)) <= B).
  { intros i Hi. destruct (HC i Hi) as (a & j & m & Ha & Hj & Hm & ->).
    rewrite (nth_relev_points (o := ot) (ov := ow)) by auto. rewrite (nth_relev_points (ov := ov)) by auto.
    rewrite pr_relev_t, (pr_relev pr pr_add pr_scale).
    apply (relev_fma sw q (fun j0 => pr (nth (a + off * (j0 + S q * m)) (control_points x) v0))); auto.
    intros j0 Hj0.
    assert (Hlt : (a + off * (j0 + S q * m) < n_coeffs (degrees x))%nat).
    { rewrite Etot.
      assert (off * ((q + 1) * S m) <= off * ((q + 1) * cnt))%nat by (apply Nat.mul_le_mono_l, Nat.mul_le_mono_l; lia). nia. }
    split; [apply HB; auto|apply HN; auto]. }
  assert (Ne : degs' <> []).
  { unfold degs'. destruct Wx as (Hne & _). intros Z. apply (f_equal (@length nat)) in Z. rewrite length_upd in Z. destruct (degrees x); simpl in *; [congruence|lia]. }
  assert (We : wf (mk degs' (relev_points (o := ot) (ov := ow) off q (n_coeffs degs') (control_points t)))).
  { apply wf_mk; auto. unfold relev_points; rewrite map_length, seq_length; auto. }
  eexists. exists e0. split; [exact E|]. split; auto. split; auto.
  split; auto.
  - rewrite De0. unfold degs'. rewrite length_upd. auto.
  - intros xs HX. rewrite (SV xs) by congruence. apply SVx; auto.
  - rewrite E1. cbn [mk control_points]. rewrite (fl_nth (ov := ov)). unfold relev_points at 1. rewrite map_length, seq_length. intros i Hi. apply Key. auto.
  - unfold within. rewrite De0, E1. cbn [mk control_points]. intros i Hi. apply Key. auto.
Qed.
(** ** Several elevations *)
Notation g := (1 + 3 * gamma p 5).
Definition ndrift (n : nat) (B : R) : R := (g ^ n - 1) * B.
Lemma ndrift_S n B : ndrift n B + gamma p 5 * (3 * (B + ndrift n B)) = ndrift (S n) B.
Proof using. unfold ndrift. cbn [pow]. ring. Qed.
Lemma ndrift_pos n B : 0 <= B -> 0 <= ndrift n B.
Proof using Hp. intros H. unfold ndrift. apply Rmult_le_pos; auto. pose proof (pow_R1_Rle g n (g1 p Hp)). lra. Qed.
Lemma elevate_to_track fuel target k s (t : spline W) x n B : track s t x (ndrift n B) B -> 0 <= B -> (k < length (degrees x))%nat ->
  (Z.of_nat target < 2 ^ Z.of_nat p)%Z ->
  (Z.of_nat (n_coeffs (upd_list (degrees x) k (Nat.max (nth k (degrees x) 0%nat) target))) < 2 ^ 31)%Z ->
  (target < fuel)%nat ->
  exists t' x', elevate_to (o := ot) (ov := ow) fuel target k t = Ok t' /\
    degrees x' = upd_list (degrees x) k (Nat.max (nth k (degrees x) 0%nat) target) /\
    track s t' x' (ndrift (n + (target - nth k (degrees x) 0%nat)) B) B.
Proof using Hp HR M pr_add pr_scale pt_add pt_scale.
  intros Htr HB Hk Ht Hs Hf. unfold elevate_to. pose proof Htr as [_ _ Dtx _ _ _ _].
  destruct (while_inv (fun y : spline W => exists z q, track s y z (ndrift (n + (q - nth k (degrees x) 0%nat)) B) B /\
      degrees z = upd_list (degrees x) k q /\ (nth k (degrees x) 0 <= q)%nat /\
                (q <= Nat.max (nth k (degrees x) 0) target)%nat)
    (fun y => (target - nth k (degrees y) 0)%nat)
    (fun y => (nth k (degrees y) 0 <? target)%nat) (fun y => OrderElevate (o := ot) (ov := ow) y k) fuel t)
    as (y & E & (z & q & HD & Hd & Hq1 & Hq2) & Hc).
  - lia.
  - exists x, (nth k (degrees x) 0%nat). rewrite Nat.sub_diag, Nat.add_0_r. split; auto. split; [|lia].
    apply (list_ext 0%nat); [now rewrite length_upd|]. intros i Hi.
    rewrite nth_upd by auto. destruct (Nat.eqb_spec i k) as [->|]; auto.
  - intros y (z & q & HD & Hd & Hq1 & Hq2) Hc. apply Nat.ltb_lt in Hc. pose proof (tr_deg _ _ _ _ _ HD) as Dyz.
    assert (Eq : nth k (degrees z) 0%nat = q) by (rewrite Hd; apply nth_upd_same; auto).
    assert (HLy : length (degrees z) = length (degrees x)) by (rewrite Hd; apply length_upd).
    assert (Eu : upd_list (degrees z) k (S q) = upd_list (degrees x) k (S q)).
    { rewrite Hd. apply (list_ext 0%nat); [now rewrite !length_upd|]. intros i Hi.
      rewrite !nth_upd by (rewrite ?length_upd; auto). destruct (i =? k)%nat; auto. }
    rewrite Dyz, Eq in Hc.
    destruct (elevate_track s y z k _ B HD) as (y' & z' & E & _ & Hd' & HD'); auto; [apply ndrift_pos; auto|lia|lia| |].
    + rewrite Eq, Eu. eapply Z.le_lt_trans; [|exact Hs]. apply inj_le. apply n_coeffs_mono.
      apply le_degs_nth; [now rewrite !length_upd|]. intros i Hi.
      rewrite !nth_upd by auto. destruct (i =? k)%nat; lia.
    + exists y'. split; auto. rewrite Eq, Eu in Hd'. split.
      * exists z', (S q). split; [|split; auto; lia].
        replace (n + (S q - nth k (degrees x) 0))%nat with (S (n + (q - nth k (degrees x) 0)))%nat by lia. rewrite <- ndrift_S. exact HD'.
      * rewrite (tr_deg _ _ _ _ _ HD'), Hd', Dyz, Hd, !nth_upd_same by auto. lia.
  - exists y, z. split; [exact E|]. apply Nat.ltb_ge in Hc. rewrite (tr_deg _ _ _ _ _ HD), Hd, nth_upd_same in Hc by auto. split.
    + rewrite Hd. f_equal. lia.
    + destruct (le_lt_dec target (nth k (degrees x) 0%nat)).
      * replace (target - nth k (degrees x) 0)%nat with (q - nth k (degrees x) 0)%nat by lia. auto.
      * replace target with q by lia. auto.
Qed.
Lemma elevate_all_track fuel targets s (t : spline W) x B : track s t x 0 B -> 0 <= B -> length targets = length (degrees x) ->
  (Z.of_nat (list_max targets) < 2 ^ Z.of_nat p)%Z ->
  (Z.of_nat (n_coeffs (max_degs (degrees x) targets)) < 2 ^ 31)%Z ->
  (list_max targets < fuel)%nat ->
  exists t' x', elevate_all (o := ot) (ov := ow) fuel targets t = Ok t' /\
    degrees x' = max_degs (degrees x) targets /\ track s t' x' (ndrift (elevations (degrees x) targets) B) B.
Proof using Hp HR M pr_add pr_scale pt_add pt_scale.
  intros Htr HB HL Ht Hs Hf. unfold elevate_all. pose proof Htr as [_ _ Dtx _ _ _ _].
  set (D := map2 (fun a b => (b - a)%nat) (degrees x) targets).
  assert (LD : length D = length (degrees x)) by (unfold D; apply length_map2; auto).
  assert (ND : forall k, (k < length (degrees x))%nat -> nth k D 0%nat = (nth k targets 0 - nth k (degrees x) 0)%nat).
  { intros k Hk. unfold D. rewrite (nth_map2 _ _ _ _ 0%nat 0%nat) by lia. reflexivity. }
  rewrite Dtx.
  edestruct (for_up_inv (fun k (y : spline W) => exists z, track s y z (ndrift (list_sum (firstn k D)) B) B /\
    length (degrees z) = length (degrees x) /\
    forall j, nth j (degrees z) 0%nat = if (j <? k)%nat then Nat.max (nth j (degrees x) 0%nat) (nth j targets 0%nat)
                                    else nth j (degrees x) 0%nat)) as (y & E & z & HV & HLy & HN).
  3:{ exists y, z. split; [exact E|]. split.
      - apply (list_ext 0%nat); [rewrite length_max_degs; auto|]. intros i Hi.
        rewrite HN, nth_max_degs by auto. rewrite (proj2 (Nat.ltb_lt _ _)); auto. lia.
      - unfold elevations. fold D. rewrite firstn_all2 in HV by lia. exact HV. }
  - exists x. split; [|split; auto]. cbn [firstn list_sum fold_right]. unfold ndrift. cbn [pow]. replace ((1 - 1) * B) with 0 by ring. exact Htr.
  - intros k y Hk (z & HV & HLy & HN). rewrite (get_ok 0%nat) by lia. cbn [bind].
    assert (Hyk : nth k (degrees z) 0%nat = nth k (degrees x) 0%nat).
    { rewrite HN, (proj2 (Nat.ltb_ge _ _)); auto. }
    pose proof (list_max_nth targets k).
    destruct (elevate_to_track fuel (nth k targets 0%nat) k s y z _ B HV) as (y' & z' & E & Hd' & HV'); auto.
    + lia.
    + lia.
    + eapply Z.le_lt_trans; [|exact Hs]. apply inj_le, n_coeffs_mono.
      apply le_degs_nth; [rewrite length_upd, length_max_degs; lia|]. intros i Hi.
      rewrite length_upd in Hi. rewrite nth_upd, nth_max_degs by lia. destruct (Nat.eqb_spec i k) as [->|].
      * rewrite Hyk. lia.
      * rewrite HN. destruct (i <? k)%nat; lia.
    + lia.
    + exists y'. split; auto. exists z'. split.
      { replace (list_sum (firstn (S k) D)) with (list_sum (firstn k D) + (nth k targets 0 - nth k (degrees z) 0))%nat; [exact HV'|].
        rewrite (firstn_S_nth 0%nat) by lia. rewrite list_sum_app. cbn [list_sum fold_right]. rewrite ND by lia. rewrite Hyk. simpl. lia. }
      split; [rewrite Hd', length_upd; auto|].
      intros j. rewrite Hd', nth_upd by lia. destruct (Nat.eqb_spec j k) as [->|].
      * rewrite Hyk. rewrite (proj2 (Nat.ltb_lt k (S k))) by lia. reflexivity.
      * rewrite HN. destruct (Nat.ltb_spec j k), (Nat.ltb_spec j (S k)); auto; lia.
Qed.
Lemma elevate_both_track fuel (s rhs : spline V) (t tr : spline W) B1 B2 : track s t s 0 B1 -> track rhs tr rhs 0 B2 -> 0 <= B1 -> 0 <= B2 ->
  length (degrees rhs) = length (degrees s) ->
  (Z.of_nat (list_max (max_degs (degrees s) (degrees rhs))) < 2 ^ Z.of_nat p)%Z ->
  (Z.of_nat (n_coeffs (max_degs (degrees s) (degrees rhs))) < 2 ^ 31)%Z ->
  (list_max (max_degs (degrees s) (degrees rhs)) < fuel)%nat ->
  exists t' x' tr' xr', elevate_all (o := ot) (ov := ow) fuel (degrees rhs) t = Ok t' /\
    elevate_all (o := ot) (ov := ow) fuel (degrees t') tr = Ok tr' /\
    degrees x' = max_degs (degrees s) (degrees rhs) /\ degrees xr' = degrees x' /\
    track s t' x' (ndrift (elevations (degrees s) (degrees rhs)) B1) B1 /\
    track rhs tr' xr' (ndrift (elevations (degrees rhs) (degrees s)) B2) B2.
Proof using Hp HR M pr_add pr_scale pt_add pt_scale.
  intros H1 H2 P1 P2 HL Ht Hs Hf. rewrite list_max_max in Hf, Ht by auto.
  destruct (elevate_all_track fuel (degrees rhs) s t s B1 H1) as (t' & x' & E & Hd & HV); auto; [lia|lia|].
  destruct (elevate_all_track fuel (degrees x') rhs tr rhs B2 H2) as (r' & z' & E' & Hd' & HV'); auto.
  - rewrite Hd, length_max_degs; auto.
  - rewrite Hd, list_max_max by auto. lia.
  - rewrite Hd, max_degs_absorb by auto. auto.
  - rewrite Hd, list_max_max by auto. lia.
  - replace (elevations (degrees rhs) (degrees x')) with (elevations (degrees rhs) (degrees s)) in HV'.
    + rewrite Hd, max_degs_absorb, <- Hd in Hd' by auto. exists t', x', r', z'. rewrite (tr_deg _ _ _ _ _ HV). auto 10.
    + rewrite Hd. unfold elevations, max_degs. f_equal. clear - HL. revert HL. generalize (degrees s) (degrees rhs).
      intros l m. revert m. induction l as [|a l IH]; intros [|b m] HL; try discriminate; auto. cbn [map2]. f_equal; [lia|]. apply IH. simpl in HL. lia.
Qed.
(** ** Results *)
Definition shows (t : spline W) (e : spline V) : Prop :=
  wf e /\ degrees e = degrees t /\
  forall i, (i < n_coeffs (degrees e))%nat -> mean (prt (nth i (control_points t) v0)) (pr (nth i (control_points e) v0)).
Lemma shows_near (t : spline W) (x e : spline V) D : degrees t = degrees x -> within D t x -> shows t e -> forall i, (i < n_coeffs (degrees x))%nat ->
  Rabs (pr (nth i (control_points e) v0) - pr (nth i (control_points x) v0)) <= D.
Proof using. intros Dt HN (We & De & He) i Hi. apply HN; auto. left. apply He. congruence. Qed.
Lemma shows_values (t : spline W) (x e : spline V) D : wf x -> degrees t = degrees x -> within D t x -> shows t e ->
  forall xs, length xs = length (degrees x) -> in_unit_box xs -> Rabs (pr (value_at e xs) - pr (value_at x xs)) <= D.
Proof using M pr_add pr_scale.
  intros Wx Dt HN He xs HX HU. pose proof He as (We & De & _). apply (close_values (ov := ov) pr pr_add pr_scale); auto; try congruence.
  intros i Hi. apply (shows_near t x e D); auto.
Qed.
Lemma sub_arg a b v : argr (Sub a b) v -> mean (Sub a b) v.
Proof using. intros [H|H]; auto. inversion H. Qed.
Lemma combine_near (opt : term -> term -> term) (opx : R -> R -> R) ta tb a b e1 e2 B1 B2 :
  opt = Add /\ opx = Rplus \/ opt = Sub /\ opx = Rminus ->
  near e1 ta a -> near e2 tb b -> Rabs a <= B1 -> Rabs b <= B2 ->
  near (e1 + e2 + u * (B1 + e1 + (B2 + e2))) (opt ta tb) (opx a b).
Proof using Hp HR.
  intros Ho H1 H2 L1 L2 v Hv.
  assert (exists x y, argr ta x /\ argr tb y /\ v = rnd (opx x y)) as (x & y & Hx & Hy & ->).
  { destruct Ho as [(-> & ->)|(-> & ->)]; [apply add_arg, add_inv in Hv|apply sub_arg, sub_inv in Hv]; auto. }
  specialize (H1 x Hx). specialize (H2 y Hy).
  assert (Lx : Rabs x <= B1 + e1) by (replace x with ((x - a) + a) by ring; eapply Rle_trans; [apply Rabs_triang|]; lra).
  assert (Ly : Rabs y <= B2 + e2) by (replace y with ((y - b) + b) by ring; eapply Rle_trans; [apply Rabs_triang|]; lra).
  assert (S1 : Rabs (opx x y) <= B1 + e1 + (B2 + e2)).
  { destruct Ho as [(_ & ->)|(_ & ->)]; [|unfold Rminus]; (eapply Rle_trans; [apply Rabs_triang|]); rewrite ?Rabs_Ropp; lra. }
  assert (S2 : Rabs (opx x y - opx a b) <= e1 + e2).
  { destruct Ho as [(_ & ->)|(_ & ->)].
    - replace (x + y - (a + b)) with ((x - a) + (y - b)) by ring. eapply Rle_trans; [apply Rabs_triang|]. lra.
    - replace (x - y - (a - b)) with ((x - a) + - (y - b)) by ring. eapply Rle_trans; [apply Rabs_triang|]. rewrite Rabs_Ropp. lra. }
  replace (rnd (opx x y) - opx a b) with ((rnd (opx x y) - opx x y) + (opx x y - opx a b)) by ring.
  eapply Rle_trans; [apply Rabs_triang|]. pose proof (Hr (opx x y)).
  assert (u * Rabs (opx x y) <= u * (B1 + e1 + (B2 + e2))) by (apply Rmult_le_compat_l; auto). lra.
Qed.
Lemma combine_track (opw : W -> W -> W) (opt : term -> term -> term) (opv : V -> V -> V) (opx : R -> R -> R) s rhs ta xa tb xb n1 n2 B1 B2 :
  opt = Add /\ opx = Rplus /\ opv = vadd (VOps := ov) \/ opt = Sub /\ opx = Rminus /\ opv = vsub (VOps := ov) ->
  (forall a b, prt (opw a b) = opt (prt a) (prt b)) -> (forall a b, pr (opv a b) = opx (pr a) (pr b)) ->
  track s ta xa (ndrift n1 B1) B1 -> track rhs tb xb (ndrift n2 B2) B2 -> degrees xb = degrees xa -> length (degrees rhs) = length (degrees s) ->
  let r := with_cps ta (map2 opw (control_points ta) (control_points tb)) in
  combine_assign opw (number_of_control_points ta) ta tb = Ok r /\
  forall e, shows r e -> degrees e = degrees xa /\
    forall xs, length xs = length (degrees s) -> in_unit_box xs ->
      Rabs (pr (value_at e xs) - opx (pr (value_at s xs)) (pr (value_at rhs xs))) <= sum_bound p n1 n2 B1 B2.
Proof using Hp HR M pr_add pr_scale.
  intros Ho Hw Hv [Wta Wxa Da La Sa Ba Na] [Wtb Wxb Db Lb Sb Bb Nb] Dd HL r.
  pose proof Wta as (_ & Nta & _ & LA). pose proof Wtb as (_ & _ & _ & LB). pose proof Wxa as (_ & _ & _ & LXA). pose proof Wxb as (_ & _ & _ & LXB).
  assert (L1 : length (control_points ta) = number_of_control_points ta) by congruence.
  assert (L2 : length (control_points tb) = number_of_control_points ta) by congruence.
  split; [apply (combine_assign_ok (ov := ow)); auto|].
  intros e He. split; [destruct He as (_ & -> & _); unfold r; cbn [with_cps degrees]; auto|]. intros xs HX HU.
  set (x := with_cps xa (map2 opv (control_points xa) (control_points xb))).
  assert (Wx : wf x) by (apply with_cps_wf; auto; rewrite length_map2; congruence).
  assert (HN : within (sum_bound p n1 n2 B1 B2) r x).
  { intros i Hi. unfold x in Hi. cbn [with_cps degrees] in Hi. unfold r, x. cbn [with_cps control_points].
    rewrite (nth_map2 opw _ _ _ v0 v0), (nth_map2 opv _ _ _ v0 v0) by congruence. rewrite Hw, Hv.
    rewrite (fl_nth (ov := ov)) in Ba, Bb. specialize (Na i Hi). specialize (Nb i ltac:(congruence)).
    specialize (Ba i ltac:(congruence)). specialize (Bb i ltac:(congruence)).
    eapply near_le; [|apply (combine_near opt opx _ _ _ _ (ndrift n1 B1) (ndrift n2 B2) B1 B2)]; eauto; [|tauto].
    unfold sum_bound, ndrift, u. apply Req_le. ring. }
  assert (Vx : pr (value_at x xs) = opx (pr (value_at s xs)) (pr (value_at rhs xs))).
  { rewrite <- (Sa xs), <- (Sb xs) by congruence. rewrite <- Hv. f_equal. unfold value_at, x. cbn [with_cps degrees control_points]. rewrite Dd.
    transitivity (bezier (degrees xa) xs (fun i => opv (nth i (control_points xa) v0) (nth i (control_points xb) v0))).
    - apply bezier_ext. intros i Hi. apply (nth_map2 opv _ _ _ v0 v0); congruence.
    - destruct Ho as [(_ & _ & ->)|(_ & _ & ->)]; [apply bezier_add|apply bezier_sub]; auto. }
  rewrite <- Vx. apply (shows_values r x e); auto. unfold x. cbn [with_cps degrees]. congruence.
Qed.
(** ** Subdivision *)
Lemma dc_near x f f' B q r j : 0 <= x <= 1 -> (r <= q)%nat -> (forall i, (j <= i <= j + r)%nat -> Rabs (f i) <= B /\ f' i = Num (f i)) ->
  near (gamma p (3 * q) * B) (dc (o := ot) (ov := Vsw sw) (Num x) f' r j) (dc (V := R) x f r j).
Proof using Hp HR.
  intros Hx Hq H v Hv.
  assert (Hm : mean (dc (o := ot) (ov := Vsw sw) (Num x) f' r j) v).
  { destruct r; cbn [dc] in *; [|apply (add_arg rnd); auto]. destruct (H j ltac:(lia)) as (_ & E). rewrite E in *.
    apply num_inv in Hv. subst. constructor. }
  destruct (dc_fma rnd u Hu Hr sw x f f' (fun i => Rabs (f i)) r Hx 0 j) with (v := v) as (E & _); auto.
  { intros i Hi w Hw. destruct (H i Hi) as (_ & Ei). rewrite Ei in Hw. apply num_mean in Hw. subst w. apply Er_x. }
  eapply Rle_trans; [exact E|]. unfold gamma. fold u. rewrite Nat.add_0_l.
  assert (N : 0 <= dc (V := R) x (fun i => Rabs (f i)) r j) by (apply dc_nonneg; auto; intros; apply Rabs_pos).
  assert (L : dc (V := R) x (fun i => Rabs (f i)) r j <= B) by (apply (dc_le p Hp); auto; intros; apply H; auto).
  assert (P := u_pow u Hu (3 * r)). assert (P2 := u_pow_le u Hu (3 * r) (3 * q) ltac:(lia)).
  apply Rmult_le_compat; [lra|exact N|lra|exact L].
Qed.
Definition numbers (t : spline W) (s : spline V) : Prop :=
  wf t /\ degrees t = degrees s /\
  forall i, (i < n_coeffs (degrees s))%nat -> prt (nth i (control_points t) v0) = Num (pr (nth i (control_points s) v0)).
Lemma numbers_track t s B : wf s -> numbers t s -> below pr (control_points s) B -> track s t s 0 B.
Proof using.
  intros Hw (Wt & Dt & N) HB. split; auto.
  - intros xs _. reflexivity.
  - intros i Hi. rewrite N by auto. apply near_num.
Qed.
(** ** Sums *)
Context (pr_sub : forall a b, pr (vsub (VOps := ov) a b) = pr a - pr b).
Definition sum_ok (s rhs : spline V) (r : spline W) (opx : R -> R -> R) B1 B2 : Prop :=
  degrees r = max_degs (degrees s) (degrees rhs) /\
  forall e, shows r e -> degrees e = max_degs (degrees s) (degrees rhs) /\
    forall xs, length xs = length (degrees s) -> in_unit_box xs ->
      Rabs (pr (value_at e xs) - opx (pr (value_at s xs)) (pr (value_at rhs xs))) <=
        sum_bound p (elevations (degrees s) (degrees rhs)) (elevations (degrees rhs) (degrees s)) B1 B2.
Lemma add_assign_track fuel (s rhs : spline V) (t tr : spline W) B1 B2 : wf s -> wf rhs -> numbers t s -> numbers tr rhs ->
  length (degrees rhs) = length (degrees s) ->
  (Z.of_nat (list_max (max_degs (degrees s) (degrees rhs))) < 2 ^ Z.of_nat p)%Z ->
  (Z.of_nat (n_coeffs (max_degs (degrees s) (degrees rhs))) < 2 ^ 31)%Z ->
  (list_max (max_degs (degrees s) (degrees rhs)) < fuel)%nat ->
  below pr (control_points s) B1 -> below pr (control_points rhs) B2 ->
  (exists r, spline_add_assign (o := ot) (ov := ow) fuel t tr = Ok r /\ sum_ok s rhs r Rplus B1 B2) /\
  (exists r, spline_sub_assign (o := ot) (ov := ow) fuel t tr = Ok r /\ sum_ok s rhs r Rminus B1 B2).
Proof using Hp HR M pr_add pr_scale pr_sub pt_add pt_scale pt_sub.
  intros Hw Hwr Nt Nr HL Ht Hs Hf HB1 HB2. pose proof (below_pos pr s B1 Hw HB1). pose proof (below_pos pr rhs B2 Hwr HB2).
  destruct (elevate_both_track fuel s rhs t tr B1 B2) as (t' & x' & tr' & xr' & E & E' & D1 & D2 & T1 & T2); auto using numbers_track.
  assert (Dtr : degrees tr = degrees rhs) by apply Nr.
  split; [unfold spline_add_assign|unfold spline_sub_assign]; rewrite Dtr, E; cbn [bind]; rewrite E'; cbn [bind].
  - destruct (combine_track (vadd (VOps := ow)) Add (vadd (VOps := ov)) Rplus s rhs t' x' tr' xr' _ _ B1 B2 ltac:(auto) pt_add pr_add T1 T2 D2 HL) as (Ec & K).
    eexists; split; [exact Ec|]. split; [cbn [with_cps degrees]; rewrite (tr_deg _ _ _ _ _ T1); auto|]. rewrite <- D1. exact K.
  - destruct (combine_track (vsub (VOps := ow)) Sub (vsub (VOps := ov)) Rminus s rhs t' x' tr' xr' _ _ B1 B2 ltac:(auto) pt_sub pr_sub T1 T2 D2 HL) as (Ec & K).
    eexists; split; [exact Ec|]. split; [cbn [with_cps degrees]; rewrite (tr_deg _ _ _ _ _ T1); auto|]. rewrite <- D1. exact K.
Qed.
Lemma add_track fuel (s rhs : spline V) (t tr : spline W) B1 B2 : wf s -> wf rhs -> numbers t s -> numbers tr rhs ->
  length (degrees rhs) = length (degrees s) ->
  (Z.of_nat (list_max (max_degs (degrees s) (degrees rhs))) < 2 ^ Z.of_nat p)%Z ->
  (Z.of_nat (n_coeffs (max_degs (degrees s) (degrees rhs))) < 2 ^ 31)%Z ->
  (list_max (max_degs (degrees s) (degrees rhs)) < fuel)%nat -> (2 <= fuel)%nat ->
  below pr (control_points s) B1 -> below pr (control_points rhs) B2 ->
  exists r, spline_add (o := ot) (ov := ow) fuel t tr = Ok r /\ sum_ok s rhs r Rplus B1 B2.
Proof using Hp HR M pr_add pr_scale pt_add pt_scale.
  intros Hw Hwr Nt Nr HL Ht Hs Hf Hf2 HB1 HB2. pose proof (below_pos pr s B1 Hw HB1). pose proof (below_pos pr rhs B2 Hwr HB2).
  destruct (elevate_both_track fuel s rhs t tr B1 B2) as (t' & x' & tr' & xr' & E & E' & D1 & D2 & T1 & T2); auto using numbers_track.
  destruct Nt as (Wt & Dt & _). destruct Nr as (Wr & Dr & _).
  pose proof (tr_deg _ _ _ _ _ T1) as Dt'. pose proof (tr_deg _ _ _ _ _ T2) as Dtr'.
  unfold spline_add. destruct fuel as [|[|fuel]]; try lia. cbn [spline_add_rec].
  assert (Hcopy : forall t : spline W, wf t -> Spline_deg_points (degrees t) (control_points t) = Ok t).
  { intros y Hy. rewrite Spline_deg_points_ok by apply Hy. now rewrite <- wf_eq_mk. }
  rewrite (Hcopy t Wt). cbn [bind].
  destruct (needs_copy_ok t tr) as (b & -> & Hb1 & Hb2); [congruence|]. cbn [bind]. rewrite <- Dr in E. rewrite E. cbn [bind].
  destruct b; cbn [negb].
  - rewrite (Hcopy tr Wr). cbn [bind].
    destruct (needs_copy_ok tr t') as (b & -> & Hb1' & Hb2'); [rewrite Dr, Dt', D1, length_max_degs; auto|]. cbn [bind].
    rewrite E'. cbn [bind].
    rewrite Hb2' by (rewrite Dr, Dt', D1; apply le_max_degs_r; auto). cbn [negb].
    destruct (combine_track (vadd (VOps := ow)) Add (vadd (VOps := ov)) Rplus rhs s tr' xr' t' x' _ _ B2 B1 ltac:(auto) pt_add pr_add T2 T1) as (Ec & K); [auto..|].
    eexists; split; [exact Ec|]. split; [cbn [with_cps degrees]; congruence|]. intros e He. destruct (K e He) as (De & HV). split; [congruence|].
    intros xs HX HU. specialize (HV xs ltac:(congruence) HU). unfold sum_bound in *.
    rewrite (Rplus_comm (pr (value_at s xs))). lra.
  - specialize (Hb1 eq_refl). rewrite Dt, Dr in Hb1.
    assert (tr' = tr) as ->.
    { rewrite (elevate_all_noop (o := ot) (ov := ow)) in E'; [congruence|rewrite Dt', D1, Dr, length_max_degs; lia|lia|].
      rewrite Dr, Dt', D1, max_degs_le by auto. apply le_degs_refl. }
    destruct (combine_track (vadd (VOps := ow)) Add (vadd (VOps := ov)) Rplus s rhs t' x' tr xr' _ _ B1 B2 ltac:(auto) pt_add pr_add T1 T2 D2 HL) as (Ec & K).
    eexists; split; [exact Ec|]. split; [cbn [with_cps degrees]; congruence|]. rewrite <- D1. exact K.
Qed.
(** ** Subdivision of a spline *)
Lemma split_track (t : spline W) (s : spline V) x k B : wf s -> numbers t s -> (k < length (degrees s))%nat -> 0 < x < 1 -> below pr (control_points s) B ->
  exists tl tr l0 r0, SplitAtPosition (o := ot) (ov := ow) t (Num x) k = Ok [tl; tr] /\ SplitAtPosition (ov := ov) s x k = Ok [l0; r0] /\
    (wf tl /\ wf tr /\ wf l0 /\ wf r0) /\
    (degrees tl = degrees s /\ degrees tr = degrees s /\ degrees l0 = degrees s /\ degrees r0 = degrees s) /\
    within (gamma p (3 * nth k (degrees s) 0%nat) * B) tl l0 /\ within (gamma p (3 * nth k (degrees s) 0%nat) * B) tr r0 /\
    forall xs, length xs = length (degrees s) ->
      value_at l0 xs = value_at s (upd_list xs k (x * nth k xs 0)) /\
      value_at r0 xs = value_at s (upd_list xs k (x + (1 - x) * nth k xs 0)).
Proof using Hp HR M pr_add pr_scale pt_add pt_scale.
  intros Hw (Wt & Dt & Nt) Hk Hx HB. set (q := nth k (degrees s) 0%nat). set (off := n_coeffs (firstn k (degrees s))).
  set (cnt := n_coeffs (skipn (S k) (degrees s))).
  assert (H0 : slt (s0 (SOps := SOps_R)) x) by (unfold slt; cbn [sltb s0 SOps_R]; destruct (Rlt_dec R0 x) as [|N]; auto; change R0 with 0 in N; lra).
  assert (H1 : slt x (s1 (SOps := SOps_R))) by (unfold slt; cbn [sltb s1 SOps_R]; destruct (Rlt_dec x R1) as [|N]; auto; change R1 with 1 in N; lra).
  assert (H0r : slt (H := ot) (s0 (SOps := ot)) (Num x)) by (unfold slt; cbn [sltb s0 SOps_term]; destruct (Rlt_dec 0 x) as [|N]; auto; lra).
  assert (H1r : slt (H := ot) (Num x) (s1 (SOps := ot))) by (unfold slt; cbn [sltb s1 SOps_term]; destruct (Rlt_dec x 1) as [|N]; auto; lra).
  destruct (SplitAtPosition_raw (o := ot) (ov := ow) t (Num x) k Wt ltac:(rewrite Dt; auto) H0r H1r) as (c1 & c2 & E & L1 & L2 & N1).
  destruct (SplitAtPosition_raw (ov := ov) s x k Hw Hk H0 H1) as (d1 & d2 & E' & L1' & L2' & N2).
  destruct (Split_values s x k Hw Hk H0 H1) as (l0 & r0 & E2 & Wl & Wr & Dl & Dr & HV).
  rewrite E' in E2. injection E2 as El Er'. rewrite Dt in N1. fold q off cnt in N1, N2.
  assert (Hoff : (0 < off)%nat) by apply n_coeffs_pos.
  assert (Etot : n_coeffs (degrees s) = (off * (q + 1) * cnt)%nat).
  { rewrite (n_coeffs_split (degrees s) k), (skipn_cons_nth 0%nat (degrees s) k) by auto.
    rewrite n_coeffs_cons. fold q off cnt. lia. }
  assert (Lc : length (control_points s) = n_coeffs (degrees s)) by apply Hw.
  assert (Lt : length (control_points t) = n_coeffs (degrees s)) by (rewrite <- Dt; apply Wt).
  rewrite (fl_nth (ov := ov)) in HB. rewrite Lc in HB.
  assert (Key : forall i, (i < n_coeffs (degrees s))%nat ->
    near (gamma p (3 * q) * B) (prt (nth i c1 v0)) (pr (nth i d1 v0)) /\ near (gamma p (3 * q) * B) (prt (nth i c2 v0)) (pr (nth i d2 v0))).
  { intros i Hi. assert (HC : exists a j m, (a < off)%nat /\ (j <= q)%nat /\ (m < cnt)%nat /\ i = (a + off * (j + (q + 1) * m))%nat).
    { exists (i mod off)%nat, (i / off mod (q + 1))%nat, (i / off / (q + 1))%nat.
      split; [apply Nat.mod_upper_bound; lia|]. split; [pose proof (Nat.mod_upper_bound (i / off) (q + 1)); lia|]. split.
      - apply Nat.div_lt_upper_bound; [lia|]. apply Nat.div_lt_upper_bound; [lia|]. rewrite Etot in Hi. nia.
      - rewrite (Nat.div_mod i off) at 1 by lia. rewrite (Nat.div_mod (i / off) (q + 1)) at 1 by lia. lia. }
    destruct HC as (a & j & m & Ha & Hj & Hm & ->).
    destruct (N1 a j m Ha Hj Hm) as (A1 & A2). destruct (N2 a j m Ha Hj Hm) as (B1 & B2).
    rewrite A1, A2, B1, B2, !pr_dc_t, !(pr_dc pr pr_add pr_scale).
    assert (Bd : forall j0, (j0 <= q)%nat -> Rabs (pr (nth (a + off * (j0 + (q + 1) * m)) (control_points s) v0)) <= B /\
      prt (nth (a + off * (j0 + (q + 1) * m)) (control_points t) v0) = Num (pr (nth (a + off * (j0 + (q + 1) * m)) (control_points s) v0))).
    { intros j0 Hj0. assert (Hlt : (a + off * (j0 + (q + 1) * m) < n_coeffs (degrees s))%nat).
      { rewrite Etot. assert (off * ((q + 1) * S m) <= off * ((q + 1) * cnt))%nat by (apply Nat.mul_le_mono_l, Nat.mul_le_mono_l; lia). nia. }
      split; [apply HB|apply Nt]; auto. }
    split; apply dc_near; try lra; try lia; intros i Hi'; apply Bd; lia. }
  assert (Wl' : wf (with_cps t c1)) by (apply with_cps_wf; auto; congruence).
  assert (Wr' : wf (with_cps t c2)) by (apply with_cps_wf; auto; congruence).
  exists (with_cps t c1), (with_cps t c2), l0, r0. split; [exact E|]. split; [rewrite E'; congruence|].
  split; [auto|]. split; [auto|]. subst l0 r0.
  split; [intros i Hi; apply Key; exact Hi|]. split; [intros i Hi; apply Key; exact Hi|]. exact HV.
Qed.
(** ** Derivatives *)
Definition EA (k : nat) (t : term) (x A : R) : Prop := forall v, argr t v -> Er ((1 + u) ^ k) v x A.
Lemma EA_up j k t x A : (j <= k)%nat -> EA j t x A -> EA k t x A.
Proof using Hp. intros H E v Hv. apply (Er_up p Hp j); auto. Qed.
Lemma EA_scale sw0 j k c t a x A X : EA j c a A -> EA k t x X -> EA (S (j + k)) (vscale (VOps := Vsw sw0) c t) (a * x) (A * X).
Proof using Hp HR.
  intros Hc Ht v Hv. apply scale_inv in Hv. destruct Hv as (y & z & Hy & Hz & Hv).
  assert (E : Er ((1 + u) ^ (j + k)) (y * z) (a * x) (A * X)) by (apply (Er_m p Hp); [apply Hc|apply Ht]; left; auto).
  destruct Hv as [->| ->]; [apply (Er_up p Hp (j + k)); auto|apply (Er_r p rnd Hp HR); auto].
Qed.
Lemma EA_add k a b x y A B : EA k a x A -> EA k b y B -> EA (S k) (Add a b) (x + y) (A + B).
Proof using Hp HR.
  intros Ha Hb v Hv. apply add_arg, add_inv in Hv. destruct Hv as (y1 & y2 & H1 & H2 & ->). apply (Er_r p rnd Hp HR). apply Er_add; auto.
Qed.
Lemma sgn_inv n v : argr (sgn (o := ot) n) v -> v = sgn (T := R) n.
Proof using.
  unfold sgn. destruct (Nat.even n); cbn [s1 sopp SOps_term SOps_R]; intros H; [apply num_inv in H; auto|].
  destruct H as [H|H].
  - remember (Opp (Num 1)) as t eqn:E. destruct H; try discriminate. injection E as ->. apply num_mean in H. now subst.
  - remember (Opp (Num 1)) as t eqn:E. destruct H; try discriminate. injection E as ->. inversion H.
Qed.
Lemma EA_sgn k n t x A : EA k t x A -> EA (S k) (Mul (sgn (o := ot) n) t) (sgn (T := R) n * x) A.
Proof using Hp HR.
  intros H v Hv. apply mul_inv in Hv. destruct Hv as (y & z & Hy & Hz & Hv). assert (Hy' : argr (sgn (o := ot) n) y) by (left; auto).
  apply sgn_inv in Hy'. subst y.
  assert (E : Er ((1 + u) ^ k) (sgn (T := R) n * z) (sgn (T := R) n * x) A) by (apply (Er_sgn p Hp); apply H; left; auto).
  destruct Hv as [->| ->]; [apply (Er_up p Hp k); auto|apply (Er_r p rnd Hp HR); auto].
Qed.
Lemma EA_ofN n : EA 1 (sofN (SOps := ot) n) (IZR (Z.of_N n)) (IZR (Z.of_N n)).
Proof using Hp HR.
  intros v Hv. cbn [sofN SOps_term] in Hv. apply num_inv in Hv. subst v. apply (Er_r p rnd Hp HR), (Er_xp p), IZR_le. lia.
Qed.
Lemma EA_fact q k : (0 < k)%nat -> EA (2 * k - 1) (rfact (o := ot) q k) (rfact (T := R) q k) (falling q k) /\ rfact (T := R) q k = falling q k.
Proof using Hp HR.
  assert (S1 : forall n, EA 1 (sofnat (H := ot) n) (INR n) (INR n)).
  { intros n. pose proof (EA_ofN (N.of_nat n)) as H. rewrite nat_N_Z, <- INR_IZR_INZ in H. exact H. }
  intros Hk. induction k as [|k IH]; [lia|]. destruct k as [|k].
  - cbn [rfact falling]. rewrite sofnat_INR, Rmult_1_l, Nat.sub_0_r. split; [|reflexivity]. simpl (2 * 1 - 1)%nat. apply S1.
  - destruct IH as (IH1 & IH2); [lia|].
    change (rfact (o := ot) q (S (S k))) with (vscale (VOps := Vsw false) (rfact (o := ot) q (S k)) (sofnat (H := ot) (q - S k))).
    change (rfact (T := R) q (S (S k))) with (rfact (T := R) q (S k) * sofnat (q - S k))%R.
    change (falling q (S (S k))) with (falling q (S k) * INR (q - S k)). rewrite sofnat_INR. split; [|now rewrite IH2].
    replace (2 * S (S k) - 1)%nat with (S ((2 * S k - 1) + 1)) by lia. apply EA_scale; auto.
Qed.
Lemma racc_fma h' h A k K n : (n <= k)%nat -> (forall j, EA K (h' j) (h j) A) ->
  EA (K + 3 + n) (racc (o := ot) (ov := Vsw sw) h' k n) (racc (V := R) h k n) (bsum k n * A).
Proof using Hp HR.
  intros Hn H. induction n as [|n IH].
  - cbn [racc bsum]. rewrite Rmult_1_l. apply (EA_up K); [lia|]. apply H.
  - cbn [racc bsum]. cbn [vadd vscale VOps_scalar sadd smul sofN SOps_R]. change (vadd (VOps := Vsw sw)) with Add.
    replace (K + 3 + S n)%nat with (S (K + 3 + n)) by lia.
    rewrite Rmult_plus_distr_r. apply EA_add; [apply IH; lia|]. apply (EA_up (S (2 + K))); [lia|].
    apply EA_scale; auto. cbn [smul SOps_term]. apply EA_sgn. apply EA_ofN.
Qed.
Lemma rGiter_fma ks degs G G' B n : length ks = length degs -> (n <= length degs)%nat -> (forall mi, Rabs (G mi) <= B /\ G' mi = Num (G mi)) -> forall mi,
  EA (derivative_roundings (firstn n ks)) (rGiter (o := ot) (ov := Vsw sw) ks degs G' n mi) (rGiter (V := R) ks degs G n mi)
     (derivative_scale (firstn n degs) (firstn n ks) * B).
Proof using Hp HR.
  intros HL Hn HG. induction n as [|n IH]; intros mi.
  - cbn [firstn derivative_scale]. rewrite Rmult_1_l. simpl (derivative_roundings []). cbn [rGiter]. destruct (HG mi) as (HB & E).
    intros v Hv. rewrite E in Hv. apply num_inv in Hv. subst v.
    apply (Er_weak _ _ _ (Rabs (G mi))); [simpl; lra|auto|apply (Er_x p)].
  - rewrite (firstn_snoc p Hp 0%nat ks n), (firstn_snoc p Hp 0%nat degs n) by lia.
    rewrite (derivative_scale_app p Hp), derivative_roundings_app by (rewrite !firstn_length; lia).
    cbn [derivative_scale]. cbn [rGiter]. unfold rdstep. unfold derivative_roundings at 2. cbn [map list_sum fold_right].
    set (k := nth n ks 0%nat). destruct (Nat.eqb_spec k 0) as [->|Hk].
    + cbn [falling pow]. rewrite !Rmult_1_r, Nat.add_0_r. apply IH. lia.
    + set (q := nth n degs 0%nat). set (K := derivative_roundings (firstn n ks)) in *.
      set (A := derivative_scale (firstn n degs) (firstn n ks)) in *.
      replace (K + (3 * k + 4 + 0))%nat with (S (2 * k + (K + 3 + k))) by lia.
      replace (A * (falling q k * 2 ^ k * 1) * B) with (falling q k * (bsum k k * (A * B))) by (rewrite (bsum_pow p Hp); ring).
      change (vscale (VOps := VOps_scalar R (o := SOps_R))) with Rmult. apply EA_scale.
      * replace (2 * k)%nat with (S (2 * k - 1)) by lia. cbn [smul SOps_R SOps_term]. apply EA_sgn. apply EA_fact. lia.
      * apply (racc_fma _ _ (A * B) k K k); [lia|]. intros j. apply IH. lia.
Qed.
Lemma pr_racc_t h k n : prt (racc (o := ot) (ov := ow) h k n) = racc (o := ot) (ov := Vsw sw) (fun j => prt (h j)) k n.
Proof using pt_add pt_scale. induction n; cbn [racc]; auto. rewrite pt_add, pt_scale, IHn. reflexivity. Qed.
Lemma pr_rGiter_t ks degs G n : forall mi,
  prt (rGiter (o := ot) (ov := ow) ks degs G n mi) = rGiter (o := ot) (ov := Vsw sw) ks degs (fun mi => prt (G mi)) n mi.
Proof using pt_add pt_scale.
  induction n; intros mi; cbn [rGiter]; auto. unfold rdstep. destruct (nth n ks 0 =? 0)%nat; auto.
  rewrite pt_scale, pr_racc_t. f_equal. apply racc_ext. intros j. apply IHn.
Qed.
Lemma derivative_track MAXB (t : spline W) (s : spline V) ks B : (MAXB <= 68)%nat -> wf s -> numbers t s -> prt v0 = Num 0 ->
  length ks = length (degrees s) -> Forall2 le ks (degrees s) ->
  Forall (fun k => (k < MAXB)%nat) ks -> below pr (control_points s) B ->
  exists r r0, DerivativeWRT (o := ot) (ov := ow) MAXB t ks = Ok r /\ DerivativeWRT (ov := ov) MAXB s ks = Ok r0 /\
    wf r /\ wf r0 /\ degrees r = map2 Nat.sub (degrees s) ks /\ degrees r0 = map2 Nat.sub (degrees s) ks /\
    within (gamma p (derivative_roundings ks) * (derivative_scale (degrees s) ks * B)) r r0.
Proof using Hp HR M pr_add pr_scale pt_add pt_scale.
  intros HMB Hw (Wt & Dt & Nt) T0 HL Hle HM HB.
  destruct (DerivativeWRT_raw (o := ot) (ov := ow) MAXB HMB t ks Wt ltac:(congruence) ltac:(rewrite Dt; auto) HM) as (r & E & Wr & Dr & N).
  destruct (DerivativeWRT_raw (ov := ov) MAXB HMB s ks Hw HL Hle HM) as (r0 & E0 & Wr0 & Dr0 & N0).
  rewrite Dt in *. exists r, r0. do 6 (split; [assumption|]).
  pose proof (below_pos pr s B Hw HB) as P0.
  assert (Lc : length (control_points s) = n_coeffs (degrees s)) by apply Hw.
  assert (Lt : length (control_points t) = n_coeffs (degrees s)) by (rewrite <- Dt; apply Wt).
  assert (Z : pr v0 = 0).
  { assert (A := pr_add (v0 (VOps := ov)) (v0 (VOps := ov))). rewrite (vm_0 (VMod := M)) in A. lra. }
  assert (HG : forall mi, Rabs (pr (nth (position (degrees s) mi) (control_points s) v0)) <= B /\
    prt (nth (position (degrees s) mi) (control_points t) v0) = Num (pr (nth (position (degrees s) mi) (control_points s) v0))).
  { intros mi. destruct (Nat.lt_ge_cases (position (degrees s) mi) (length (control_points s))) as [Hi|Hi].
    - rewrite (fl_nth (ov := ov)) in HB. split; [apply HB; auto|apply Nt; congruence].
    - rewrite !nth_overflow by lia. rewrite Z, Rabs_R0, T0. auto. }
  intros i Hi. rewrite Dr0 in Hi. set (nd := map2 Nat.sub (degrees s) ks) in *.
  rewrite <- (position_index_of nd i Hi). rewrite N0, N by (apply index_of_valid; auto). rewrite (pr_rGiter pr pr_add pr_scale), pr_rGiter_t.
  intros v Hv.
  destruct (rGiter_fma ks (degrees s) (fun mi => pr (nth (position (degrees s) mi) (control_points s) v0))
    (fun mi => prt (nth (position (degrees s) mi) (control_points t) v0)) B (length (degrees s)) HL (le_n _) HG (index_of nd i) v Hv) as (K & _).
  rewrite !firstn_all in K. replace (firstn (length (degrees s)) ks) with ks in K by (rewrite <- HL; symmetry; apply firstn_all). exact K.
Qed.
End Gen.
