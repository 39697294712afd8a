(** C111: elevation, sums, subdivision and derivatives with contracted multiplications and additions. *)
From Coq Require Import Arith Lia List ZArith NArith Bool Reals Lra Psatz.
From Verif Require Import Prelude Scalar Spec SpecSpline Sums Coord ModelBasis ModelSpline
  ModelRound SpecRound ProofIndex ProofBasis ProofEval ProofParam ProofParamOps ProofCasteljau ProofRound ProofRoundEval ProofRaw ProofArith
  ClaimsU ProofRoundOps ClaimsRoundOps ModelFma ProofFma ClaimsFma ModelFmaOps ProofFmaOps.
Import ListNotations.
Local Open Scope R_scope.

(** ** Possible results of a spline of trees *)
Lemma F2_nth_fma {A B} (P : A -> B -> Prop) l m i d e : Forall2 P l m -> (i < length l)%nat -> P (nth i l d) (nth i m e).
Proof. intros H. revert i. induction H; intros [|i] Hi; simpl in *; try lia; auto. apply IHForall2. lia. Qed.
Lemma means_wf rnd d t (e : spline (point R d)) : wf t -> means_spline rnd t e -> wf e.
Proof.
  intros (A & B & C & D) (E1 & E2 & E3 & E4). repeat split; try congruence. rewrite <- (F2_length _ _ _ E4). congruence.
Qed.
Lemma means_wf_s rnd t (e : spline R) : wf t -> means_spline_s rnd t e -> wf e.
Proof.
  intros (A & B & C & D) (E1 & E2 & E3 & E4). repeat split; try congruence. rewrite <- (F2_length _ _ _ E4). congruence.
Qed.
Notation prc d c := (fun q : point R d => coord d q c).
Notation prct rnd d c := (fun q : point term d => coord (o := SOps_term rnd) d q c).
Lemma means_shows rnd d t (e : spline (point R d)) c : (c < d)%nat -> wf t -> means_spline rnd t e ->
  shows rnd (ov := VOps_point R d) (ow := Vt rnd d) (prc d c) (prct rnd d c) t e.
Proof.
  intros Hc Wt H. split; [eapply means_wf; eauto|]. destruct H as (E1 & _ & _ & E4). split; auto.
  intros i Hi. apply (F2_nth_fma _ _ _ i v0 v0 E4); auto. destruct Wt as (_ & _ & _ & D). congruence.
Qed.
Lemma means_shows_s rnd t (e : spline R) : wf t -> means_spline_s rnd t e ->
  shows rnd (ov := VOps_scalar R (o := SOps_R)) (ow := Vts rnd) (fun q => q) (fun q => q) t e.
Proof.
  intros Wt H. split; [eapply means_wf_s; eauto|]. destruct H as (E1 & _ & _ & E4). split; auto.
  intros i Hi. apply (F2_nth_fma _ _ _ i (Num 0) 0 E4). destruct Wt as (_ & _ & _ & D). congruence.
Qed.
Lemma num_numbers rnd d (s : spline (point R d)) c : (c < d)%nat -> wf s ->
  numbers (ov := VOps_point R d) (ow := Vt rnd d) (prc d c) (prct rnd d c) (num_spline s) s.
Proof. intros Hc Hw. split; [apply wf_num; auto|]. split; auto. intros i Hi. apply (coord_cp rnd d s i c Hc). Qed.
Lemma num_numbers_s rnd (s : spline R) : wf s -> numbers (ov := VOps_scalar R (o := SOps_R)) (ow := Vts rnd) (fun q => q) (fun q => q) (num_spline_s s) s.
Proof. intros Hw. split; [apply wf_num_s; auto|]. split; auto. intros i Hi. apply (map_nth Num). Qed.

(** ** The operations on coordinates *)
Section Coordinates.
Context (rnd : R -> R) (d c : nat) (Hc : (c < d)%nat).
Lemma ca_add (a b : point R d) : coord d (vadd a b) c = coord d a c + coord d b c.
Proof using. apply (coord_add (o := SOps_R)). Qed.
Lemma ca_sub (a b : point R d) : coord d (vsub a b) c = coord d a c - coord d b c.
Proof using. apply (coord_sub (o := SOps_R)). Qed.
Lemma ca_scale x (a : point R d) : coord d (vscale x a) c = x * coord d a c.
Proof using. apply (coord_scale (o := SOps_R)). Qed.
Lemma ct_add (a b : point term d) : prct rnd d c (vadd (VOps := Vt rnd d) a b) = Add (prct rnd d c a) (prct rnd d c b).
Proof using Hc. apply (coord_t_pmap2 rnd d Add a b c Hc). Qed.
Lemma ct_sub (a b : point term d) : prct rnd d c (vsub (VOps := Vt rnd d) a b) = Sub (prct rnd d c a) (prct rnd d c b).
Proof using Hc. apply (coord_t_pmap2 rnd d Sub a b c Hc). Qed.
Lemma ct_scale x (a : point term d) : prct rnd d c (vscale (VOps := Vt rnd d) x a) = vscale (VOps := VOps_sw rnd true) x (prct rnd d c a).
Proof using Hc. apply (coord_t_pmap rnd d (fun y => Mul y x) a c Hc). Qed.
Lemma ct_0 : prct rnd d c (v0 (VOps := Vt rnd d)) = Num 0.
Proof using Hc. pose proof (coord_num rnd d (pconst d 0) c Hc) as H. rewrite num_v0 in H. cbn [v0 VOps_point s0 SOps_term]. rewrite H. f_equal. unfold coord. clear. revert c; induction d; intros [|k]; simpl; auto. Qed.
End Coordinates.


(** ** The result without contraction *)
Lemma plain_ring rnd : rel_ring' (o1 := SOps_term rnd) (o2 := SOps_rnd rnd) (means rnd).
Proof.
  split; [apply rel_plain| |].
  - intros a a' H. cbn [sopp SOps_term SOps_rnd]. constructor; auto.
  - intros a a' k H. unfold divS. cbn [seqb s0 sofN sdiv SOps_term SOps_rnd].
    destruct (Req_EM_T (rnd (IZR (Z.of_N k))) 0) as [Z|Z]; simpl; auto. constructor; auto. constructor.
Qed.
Lemma plain_point rnd d : rel_mod' (ov1 := Vt rnd d) (ov2 := VOps_point R d (o := SOps_rnd rnd)) (means rnd) (pmeans rnd d).
Proof.
  split; [apply rel_plain_point| |]; simpl.
  - induction d; simpl; auto. intros a b a' b' (H1 & H2) (H3 & H4). split; auto. constructor; auto.
  - induction d; simpl; auto. intros a a' (H1 & H2). split; auto. repeat constructor; auto.
Qed.
Lemma plain_scalar rnd : rel_mod' (ov1 := Vts rnd) (ov2 := VOps_scalar R (o := SOps_rnd rnd)) (means rnd) (means rnd).
Proof. apply (rel_mod_scalar (means rnd) (plain_ring rnd)). Qed.
Lemma srel_means rnd d (t : spline (point term d)) e : srel (pmeans rnd d) t e -> means_spline rnd t e.
Proof.
  intros [A B C D]. repeat split; auto. clear - D. induction D; constructor; auto. now apply pmeans_point.
Qed.
Lemma srel_means_s rnd (t : spline term) e : srel (means rnd) t e -> means_spline_s rnd t e.
Proof. intros [A B C D]. repeat split; auto. Qed.
Lemma srel_wf {A B} (P : A -> B -> Prop) t e : srel P t e -> wf e -> wf t.
Proof. intros [D1 D2 D3 D4] (A1 & A2 & A3 & A4). repeat split; try congruence. rewrite (F2_length _ _ _ D4). congruence. Qed.
Lemma rres_ok {A B} (P : A -> B -> Prop) (a : res A) b : rres P a (Ok b) -> exists x, a = Ok x /\ P x b.
Proof. destruct a; simpl; try contradiction. eauto. Qed.
Lemma slt_plain rnd x :
  (sltb (SOps := SOps_term rnd) (s0 (SOps := SOps_term rnd)) (Num x) && sltb (SOps := SOps_term rnd) (Num x) (s1 (SOps := SOps_term rnd)))%bool =
  (sltb (SOps := SOps_rnd rnd) (s0 (SOps := SOps_rnd rnd)) x && sltb (SOps := SOps_rnd rnd) x (s1 (SOps := SOps_rnd rnd)))%bool.
Proof. reflexivity. Qed.
Lemma some_bound (s : spline R) : exists B, coeff_bound s B.
Proof.
  exists (fold_right (fun c b => Rabs c + b) 0 (control_points s)). intros i Hi. clear Hi.
  revert i. induction (control_points s) as [|c l IH]; intros [|i]; simpl; rewrite ?Rabs_R0; try lra.
  - assert (0 <= fold_right (fun c b => Rabs c + b) 0 l) by (clear; induction l as [|a l IH]; simpl; [lra|pose proof (Rabs_pos a); lra]). lra.
  - specialize (IH i). pose proof (Rabs_pos c). lra.
Qed.
Lemma elevate_plain rnd d (s : spline (point R d)) k e : OrderElevate_rnd rnd s k = Ok e -> exists t, OrderElevate (o := SOps_term rnd) (ov := Vt rnd d) (num_spline s) k = Ok t /\ srel (pmeans rnd d) t e.
Proof.
  intros E. apply rres_ok. rewrite <- E. exact (OrderElevate_rel _ _ (plain_ring rnd) (plain_point rnd d) _ _ k (srel_num rnd d s)).
Qed.
Lemma add_plain rnd d fuel (s rhs : spline (point R d)) e : spline_add_rnd rnd fuel s rhs = Ok e -> exists t, spline_add (o := SOps_term rnd) (ov := Vt rnd d) fuel (num_spline s) (num_spline rhs) = Ok t /\ srel (pmeans rnd d) t e.
Proof.
  intros E. apply rres_ok. rewrite <- E. exact (spline_add_rel _ _ (plain_ring rnd) (plain_point rnd d) fuel _ _ _ _ (srel_num rnd d s) (srel_num rnd d rhs)).
Qed.
Lemma add_assign_plain rnd d fuel (s rhs : spline (point R d)) e : spline_add_assign_rnd rnd fuel s rhs = Ok e -> exists t, spline_add_assign (o := SOps_term rnd) (ov := Vt rnd d) fuel (num_spline s) (num_spline rhs) = Ok t /\ srel (pmeans rnd d) t e.
Proof.
  intros E. apply rres_ok. rewrite <- E. exact (spline_add_assign_rel _ _ (plain_ring rnd) (plain_point rnd d) fuel _ _ _ _ (srel_num rnd d s) (srel_num rnd d rhs)).
Qed.
Lemma sub_assign_plain rnd d fuel (s rhs : spline (point R d)) e : spline_sub_assign_rnd rnd fuel s rhs = Ok e -> exists t, spline_sub_assign (o := SOps_term rnd) (ov := Vt rnd d) fuel (num_spline s) (num_spline rhs) = Ok t /\ srel (pmeans rnd d) t e.
Proof.
  intros E. apply rres_ok. rewrite <- E. exact (spline_sub_assign_rel _ _ (plain_ring rnd) (plain_point rnd d) fuel _ _ _ _ (srel_num rnd d s) (srel_num rnd d rhs)).
Qed.
Lemma derivative_plain rnd d MAXB (s : spline (point R d)) orders e : DerivativeWRT_rnd rnd MAXB s orders = Ok e -> exists t, DerivativeWRT (o := SOps_term rnd) (ov := Vt rnd d) MAXB (num_spline s) orders = Ok t /\ srel (pmeans rnd d) t e.
Proof.
  intros E. apply rres_ok. rewrite <- E. exact (DerivativeWRT_rel _ _ (plain_ring rnd) (plain_point rnd d) MAXB _ _ orders (srel_num rnd d s)).
Qed.
Lemma split_plain rnd d (s : spline (point R d)) x k l r : SplitAtPosition_rnd rnd s x k = Ok [l; r] ->
  exists tl tr, SplitAtPosition (o := SOps_term rnd) (ov := Vt rnd d) (num_spline s) (Num x) k = Ok [tl; tr] /\ srel (pmeans rnd d) tl l /\ srel (pmeans rnd d) tr r.
Proof.
  intros E. pose proof (SplitAtPosition_rel _ _ (plain_ring rnd) (plain_point rnd d) _ _ (Num x) x k (srel_num rnd d s) (m_num rnd x) (slt_plain rnd x)) as H.
  unfold SplitAtPosition_rnd in E. rewrite E in H. apply rres_ok in H. destruct H as (ts & Et & H).
  inversion H as [|tl ? tr' ? H1 H2]; subst. inversion H2 as [|tr ? n' ? H3 H4]; subst. inversion H4; subst. eauto.
Qed.
Lemma c111_plain : forall rnd MAXB fuel d (s rhs : spline (point R d)) k x orders e l r,
  (OrderElevate_rnd rnd s k = Ok e -> OrderElevate_fma rnd s k e) /\
  (spline_add_rnd rnd fuel s rhs = Ok e -> spline_add_fma rnd fuel s rhs e) /\
  (spline_add_assign_rnd rnd fuel s rhs = Ok e -> spline_add_assign_fma rnd fuel s rhs e) /\
  (spline_sub_assign_rnd rnd fuel s rhs = Ok e -> spline_sub_assign_fma rnd fuel s rhs e) /\
  (SplitAtPosition_rnd rnd s x k = Ok [l; r] -> SplitAtPosition_fma rnd s x k l r) /\
  (DerivativeWRT_rnd rnd MAXB s orders = Ok e -> DerivativeWRT_fma rnd MAXB s orders e).
Proof.
  intros rnd MAXB fuel d s rhs k x orders e l r. split; [|split; [|split; [|split; [|split]]]]; intros E.
  - apply elevate_plain in E. destruct E as (t & E & H). exists t. auto using srel_means.
  - apply add_plain in E. destruct E as (t & E & H). exists t. auto using srel_means.
  - apply add_assign_plain in E. destruct E as (t & E & H). exists t. auto using srel_means.
  - apply sub_assign_plain in E. destruct E as (t & E & H). exists t. auto using srel_means.
  - apply split_plain in E. destruct E as (tl & tr & E & H1 & H2). exists tl, tr. auto using srel_means.
  - apply derivative_plain in E. destruct E as (t & E & H). exists t. auto using srel_means.
Qed.
Lemma c111_elevate : forall p rnd d (s : spline (point R d)) k e, (0 < p)%nat -> nearest p rnd ->
  wf s -> (k < length (degrees s))%nat ->
  (Z.of_nat (nth k (degrees s) 0%nat + 1) < 2 ^ Z.of_nat p)%Z ->
  (Z.of_nat (n_coeffs (upd_list (degrees s) k (S (nth k (degrees s) 0%nat)))) < 2 ^ 31)%Z ->
  OrderElevate_fma rnd s k e ->
  exists e0, OrderElevate s k = Ok e0 /\ wf e /\
    degrees e = upd_list (degrees s) k (S (nth k (degrees s) 0%nat)) /\ degrees e0 = degrees e /\
    forall c B, (c < d)%nat -> coord_bound s c B ->
      (forall i, (i < n_coeffs (degrees e))%nat ->
        Rabs (coord d (nth i (control_points e) v0) c - coord d (nth i (control_points e0) v0) c) <= 3 * gamma p 5 * B) /\
      forall xs, length xs = length (degrees s) -> in_unit_box xs ->
        Rabs (coord d (value_at e xs) c - coord d (value_at s xs) c) <= 3 * gamma p 5 * B.
Proof.
  intros p rnd d s k e Hp HR Hw Hk Hq Hs (t & E & He).
  destruct (c81_elevate p rnd d s k Hp HR Hw Hk Hq Hs) as (e1 & e0 & E1 & E0 & W1 & D1 & D0 & _).
  destruct (elevate_plain _ _ _ _ _ E1) as (t1 & Et & Rt). rewrite E in Et. injection Et as <-.
  assert (Wt : wf t) by (eapply srel_wf; eauto). assert (Dt := sr_deg _ _ _ Rt). assert (De : degrees e = degrees t) by apply He.
  exists e0. split; auto. split; [eapply means_wf; eauto|]. split; [congruence|]. split; [congruence|]. intros c B Hc HB.
  destruct (elevate_track p rnd Hp HR (ov := VOps_point R d) (ow := Vt rnd d) true (prc d c) (prct rnd d c) (ca_add d c) (ca_scale d c)
    (ct_add rnd d c Hc) (ct_scale rnd d c Hc) s (num_spline s) s k 0 B) as (t' & x' & E' & E0' & Dx & [_ Wx Dt' Lx Sx Bx Nx]); auto; [|lra|].
  { apply (numbers_track rnd (ov := VOps_point R d) (ow := Vt rnd d) (prc d c) (prct rnd d c)); auto using num_numbers, below_coord. }
  rewrite E in E'. injection E' as <-. rewrite E0 in E0'. injection E0' as <-.
  pose proof (means_shows rnd d t e c Hc Wt He) as Sh.
  replace (0 + gamma p 5 * (3 * (B + 0))) with (3 * gamma p 5 * B) in Nx by ring.
  split; [rewrite De, Dt'; apply (shows_near rnd (ov := VOps_point R d) (ow := Vt rnd d) (prc d c) (prct rnd d c) t); auto|].
  intros xs HX HU. rewrite <- (Sx xs HX).
  apply (shows_values rnd (ov := VOps_point R d) (ow := Vt rnd d) (prc d c) (prct rnd d c) (ca_add d c) (ca_scale d c) t); auto. congruence.
Qed.
Lemma c111_add : forall p rnd fuel d (s rhs r : spline (point R d)), (0 < p)%nat -> nearest p rnd ->
  wf s -> wf rhs -> length (degrees rhs) = length (degrees s) ->
  (Z.of_nat (list_max (max_degs (degrees s) (degrees rhs))) < 2 ^ Z.of_nat p)%Z ->
  (Z.of_nat (n_coeffs (max_degs (degrees s) (degrees rhs))) < 2 ^ 31)%Z ->
  (list_max (max_degs (degrees s) (degrees rhs)) < fuel)%nat -> (2 <= fuel)%nat ->
  spline_add_fma rnd fuel s rhs r ->
  wf r /\ degrees r = max_degs (degrees s) (degrees rhs) /\
  forall c B1 B2, (c < d)%nat -> coord_bound s c B1 -> coord_bound rhs c B2 ->
    forall xs, length xs = length (degrees s) -> in_unit_box xs ->
      Rabs (coord d (value_at r xs) c - (coord d (value_at s xs) c + coord d (value_at rhs xs) c)) <=
        sum_error p (elevations (degrees s) (degrees rhs)) (elevations (degrees rhs) (degrees s)) B1 B2.
Proof.
  intros p rnd fuel d s rhs r Hp HR Hw Hwr HL Ht Hs Hf Hf2 (t & E & He).
  destruct (c81_add p rnd fuel d s rhs Hp HR Hw Hwr HL Ht Hs Hf Hf2) as (r1 & E1 & W1 & D1 & _).
  destruct (add_plain _ _ _ _ _ _ E1) as (t1 & Et & Rt). rewrite E in Et. injection Et as <-.
  assert (Wt : wf t) by (eapply srel_wf; eauto). assert (Dt := sr_deg _ _ _ Rt). assert (De : degrees r = degrees t) by apply He.
  split; [eapply means_wf; eauto|]. split; [congruence|]. intros c B1 B2 Hc HB1 HB2.
  pose proof (add_track p rnd Hp HR (ov := VOps_point R d) (ow := Vt rnd d) true (prc d c) (prct rnd d c) (ca_add d c) (ca_scale d c)
    (ct_add rnd d c Hc) (ct_scale rnd d c Hc) fuel s rhs (num_spline s) (num_spline rhs) B1 B2 Hw Hwr (num_numbers rnd d s c Hc Hw) (num_numbers rnd d rhs c Hc Hwr) HL Ht Hs Hf Hf2
    (below_coord s c B1 Hw HB1) (below_coord rhs c B2 Hwr HB2)) as H.
  destruct H as (t' & E' & D' & K).
  rewrite E in E'. injection E' as <-. apply (K r (means_shows rnd d t r c Hc Wt He)).
Qed.
Lemma c111_add_assign : forall p rnd fuel d (s rhs r : spline (point R d)), (0 < p)%nat -> nearest p rnd ->
  wf s -> wf rhs -> length (degrees rhs) = length (degrees s) ->
  (Z.of_nat (list_max (max_degs (degrees s) (degrees rhs))) < 2 ^ Z.of_nat p)%Z ->
  (Z.of_nat (n_coeffs (max_degs (degrees s) (degrees rhs))) < 2 ^ 31)%Z ->
  (list_max (max_degs (degrees s) (degrees rhs)) < fuel)%nat ->
  spline_add_assign_fma rnd fuel s rhs r ->
  wf r /\ degrees r = max_degs (degrees s) (degrees rhs) /\
  forall c B1 B2, (c < d)%nat -> coord_bound s c B1 -> coord_bound rhs c B2 ->
    forall xs, length xs = length (degrees s) -> in_unit_box xs ->
      Rabs (coord d (value_at r xs) c - (coord d (value_at s xs) c + coord d (value_at rhs xs) c)) <=
        sum_error p (elevations (degrees s) (degrees rhs)) (elevations (degrees rhs) (degrees s)) B1 B2.
Proof.
  intros p rnd fuel d s rhs r Hp HR Hw Hwr HL Ht Hs Hf (t & E & He).
  destruct (c81_add_assign p rnd fuel d s rhs Hp HR Hw Hwr HL Ht Hs Hf) as (r1 & E1 & W1 & D1 & _).
  destruct (add_assign_plain _ _ _ _ _ _ E1) as (t1 & Et & Rt). rewrite E in Et. injection Et as <-.
  assert (Wt : wf t) by (eapply srel_wf; eauto). assert (Dt := sr_deg _ _ _ Rt). assert (De : degrees r = degrees t) by apply He.
  split; [eapply means_wf; eauto|]. split; [congruence|]. intros c B1 B2 Hc HB1 HB2.
  pose proof (add_assign_track p rnd Hp HR (ov := VOps_point R d) (ow := Vt rnd d) true (prc d c) (prct rnd d c) (ca_add d c) (ca_scale d c)
    (ct_add rnd d c Hc) (ct_sub rnd d c Hc) (ct_scale rnd d c Hc) (ca_sub d c) fuel s rhs (num_spline s) (num_spline rhs) B1 B2 Hw Hwr (num_numbers rnd d s c Hc Hw) (num_numbers rnd d rhs c Hc Hwr) HL Ht Hs Hf
    (below_coord s c B1 Hw HB1) (below_coord rhs c B2 Hwr HB2)) as H.
  apply proj1 in H. destruct H as (t' & E' & D' & K).
  rewrite E in E'. injection E' as <-. apply (K r (means_shows rnd d t r c Hc Wt He)).
Qed.
Lemma c111_sub_assign : forall p rnd fuel d (s rhs r : spline (point R d)), (0 < p)%nat -> nearest p rnd ->
  wf s -> wf rhs -> length (degrees rhs) = length (degrees s) ->
  (Z.of_nat (list_max (max_degs (degrees s) (degrees rhs))) < 2 ^ Z.of_nat p)%Z ->
  (Z.of_nat (n_coeffs (max_degs (degrees s) (degrees rhs))) < 2 ^ 31)%Z ->
  (list_max (max_degs (degrees s) (degrees rhs)) < fuel)%nat ->
  spline_sub_assign_fma rnd fuel s rhs r ->
  wf r /\ degrees r = max_degs (degrees s) (degrees rhs) /\
  forall c B1 B2, (c < d)%nat -> coord_bound s c B1 -> coord_bound rhs c B2 ->
    forall xs, length xs = length (degrees s) -> in_unit_box xs ->
      Rabs (coord d (value_at r xs) c - (coord d (value_at s xs) c - coord d (value_at rhs xs) c)) <=
        sum_error p (elevations (degrees s) (degrees rhs)) (elevations (degrees rhs) (degrees s)) B1 B2.
Proof.
  intros p rnd fuel d s rhs r Hp HR Hw Hwr HL Ht Hs Hf (t & E & He).
  destruct (c81_sub_assign p rnd fuel d s rhs Hp HR Hw Hwr HL Ht Hs Hf) as (r1 & E1 & W1 & D1 & _).
  destruct (sub_assign_plain _ _ _ _ _ _ E1) as (t1 & Et & Rt). rewrite E in Et. injection Et as <-.
  assert (Wt : wf t) by (eapply srel_wf; eauto). assert (Dt := sr_deg _ _ _ Rt). assert (De : degrees r = degrees t) by apply He.
  split; [eapply means_wf; eauto|]. split; [congruence|]. intros c B1 B2 Hc HB1 HB2.
  pose proof (add_assign_track p rnd Hp HR (ov := VOps_point R d) (ow := Vt rnd d) true (prc d c) (prct rnd d c) (ca_add d c) (ca_scale d c)
    (ct_add rnd d c Hc) (ct_sub rnd d c Hc) (ct_scale rnd d c Hc) (ca_sub d c) fuel s rhs (num_spline s) (num_spline rhs) B1 B2 Hw Hwr (num_numbers rnd d s c Hc Hw) (num_numbers rnd d rhs c Hc Hwr) HL Ht Hs Hf
    (below_coord s c B1 Hw HB1) (below_coord rhs c B2 Hwr HB2)) as H.
  apply proj2 in H. destruct H as (t' & E' & D' & K).
  rewrite E in E'. injection E' as <-. apply (K r (means_shows rnd d t r c Hc Wt He)).
Qed.
Lemma c111_split : forall p rnd d (s : spline (point R d)) x k l r, (0 < p)%nat -> nearest p rnd ->
  wf s -> (k < length (degrees s))%nat -> 0 < x < 1 -> SplitAtPosition_fma rnd s x k l r ->
  exists l0 r0, SplitAtPosition s x k = Ok [l0; r0] /\
    wf l /\ wf r /\ degrees l = degrees s /\ degrees r = degrees s /\
    forall c B, (c < d)%nat -> coord_bound s c B ->
      (forall i, (i < n_coeffs (degrees s))%nat ->
        Rabs (coord d (nth i (control_points l) v0) c - coord d (nth i (control_points l0) v0) c) <= gamma p (3 * nth k (degrees s) 0%nat) * B /\
        Rabs (coord d (nth i (control_points r) v0) c - coord d (nth i (control_points r0) v0) c) <= gamma p (3 * nth k (degrees s) 0%nat) * B) /\
      forall xs, length xs = length (degrees s) -> in_unit_box xs ->
        Rabs (coord d (value_at l xs) c - coord d (value_at s (upd_list xs k (x * nth k xs 0))) c) <=
          gamma p (3 * nth k (degrees s) 0%nat) * B /\
        Rabs (coord d (value_at r xs) c - coord d (value_at s (upd_list xs k (x + (1 - x) * nth k xs 0))) c) <=
          gamma p (3 * nth k (degrees s) 0%nat) * B.
Proof.
  intros p rnd d s x k l r Hp HR Hw Hk Hx (tl & tr & E & Hl & Hr).
  destruct (c82_split p rnd d s x k Hp HR Hw Hk Hx) as (l1 & r1 & l0 & r0 & E1 & E0 & W1 & W2 & D1 & D2 & _).
  destruct (split_plain _ _ _ _ _ _ _ E1) as (tl1 & tr1 & Et & R1 & R2). rewrite E in Et. injection Et as <- <-.
  assert (Wl : wf tl) by (eapply srel_wf; eauto). assert (Wr : wf tr) by (eapply srel_wf; eauto).
  assert (Dl := sr_deg _ _ _ R1). assert (Dr := sr_deg _ _ _ R2).
  assert (Del : degrees l = degrees tl) by apply (proj1 Hl). assert (Der : degrees r = degrees tr) by apply (proj1 Hr).
  exists l0, r0. split; auto. split; [eapply means_wf; [exact Wl|exact Hl]|]. split; [eapply means_wf; [exact Wr|exact Hr]|]. split; [congruence|]. split; [congruence|]. intros c B Hc HB.
  destruct (split_track p rnd Hp HR (ov := VOps_point R d) (ow := Vt rnd d) true (prc d c) (prct rnd d c) (ca_add d c) (ca_scale d c) (ct_add rnd d c Hc) (ct_scale rnd d c Hc) (num_spline s) s x k B Hw (num_numbers rnd d s c Hc Hw) Hk Hx (below_coord s c B Hw HB))
    as (tl' & tr' & l0' & r0' & E' & E0' & (_ & _ & Wl0 & Wr0) & (_ & _ & Dl0 & Dr0) & N1 & N2 & HV).
  rewrite E in E'. injection E' as <- <-. rewrite E0 in E0'. injection E0' as <- <-.
  pose proof (means_shows rnd d tl l c Hc Wl Hl) as S1. pose proof (means_shows rnd d tr r c Hc Wr Hr) as S2.
  split.
  - intros i Hi. split.
    + apply (shows_near rnd (ov := VOps_point R d) (ow := Vt rnd d) (prc d c) (prct rnd d c) tl); auto; congruence.
    + apply (shows_near rnd (ov := VOps_point R d) (ow := Vt rnd d) (prc d c) (prct rnd d c) tr); auto; congruence.
  - intros xs HX HU. destruct (HV xs HX) as (V1 & V2). split; [rewrite <- V1|rewrite <- V2].
    + apply (shows_values rnd (ov := VOps_point R d) (ow := Vt rnd d) (prc d c) (prct rnd d c) (ca_add d c) (ca_scale d c) tl); auto; congruence.
    + apply (shows_values rnd (ov := VOps_point R d) (ow := Vt rnd d) (prc d c) (prct rnd d c) (ca_add d c) (ca_scale d c) tr); auto; congruence.
Qed.
Lemma c111_derivative : forall p rnd MAXB d (s : spline (point R d)) orders r, (0 < p)%nat -> nearest p rnd -> (MAXB <= 68)%nat ->
  wf s -> length orders = length (degrees s) -> Forall2 le orders (degrees s) -> Forall (fun k => (k < MAXB)%nat) orders ->
  DerivativeWRT_fma rnd MAXB s orders r ->
  exists r0, DerivativeWRT MAXB s orders = Ok r0 /\
    wf r /\ wf r0 /\ degrees r = map2 Nat.sub (degrees s) orders /\ degrees r0 = degrees r /\
    forall c B, (c < d)%nat -> coord_bound s c B ->
      (forall i, (i < n_coeffs (degrees r))%nat ->
        Rabs (coord d (nth i (control_points r) v0) c - coord d (nth i (control_points r0) v0) c) <=
          gamma p (derivative_roundings orders) * (derivative_scale (degrees s) orders * B)) /\
      forall xs, length xs = length (degrees s) -> in_unit_box xs ->
        Rabs (coord d (value_at r xs) c - coord d (value_at r0 xs) c) <=
          gamma p (derivative_roundings orders) * (derivative_scale (degrees s) orders * B).
Proof.
  intros p rnd MAXB d s orders r Hp HR HMB Hw HL Hle HM (t & E & He).
  destruct (c83_derivative p rnd MAXB d s orders Hp HR HMB Hw HL Hle HM) as (r1 & r0 & E1 & E0 & W1 & W0 & D1 & D0 & _).
  destruct (derivative_plain _ _ _ _ _ _ E1) as (t1 & Et & Rt). rewrite E in Et. injection Et as <-.
  assert (Wt : wf t) by (eapply srel_wf; eauto). assert (Dt := sr_deg _ _ _ Rt). assert (De : degrees r = degrees t) by apply He.
  exists r0. split; auto. split; [eapply means_wf; eauto|]. split; auto. split; [congruence|]. split; [congruence|]. intros c B Hc HB.
  destruct (derivative_track p rnd Hp HR (ov := VOps_point R d) (ow := Vt rnd d) true (prc d c) (prct rnd d c) (ca_add d c) (ca_scale d c) (ct_add rnd d c Hc) (ct_scale rnd d c Hc) MAXB (num_spline s) s orders B HMB Hw (num_numbers rnd d s c Hc Hw) (ct_0 rnd d c Hc) HL Hle HM
    (below_coord s c B Hw HB)) as (t' & r0' & E' & E0' & _ & _ & _ & Dr0 & N0).
  rewrite E in E'. injection E' as <-. rewrite E0 in E0'. injection E0' as <-.
  pose proof (means_shows rnd d t r c Hc Wt He) as Sh.
  split; [rewrite De; replace (degrees t) with (degrees r0) by congruence; apply (shows_near rnd (ov := VOps_point R d) (ow := Vt rnd d) (prc d c) (prct rnd d c) t); auto; congruence|].
  intros xs HX HU. apply (shows_values rnd (ov := VOps_point R d) (ow := Vt rnd d) (prc d c) (prct rnd d c) (ca_add d c) (ca_scale d c) t); auto; [congruence|]. rewrite Dr0, length_map2; auto.
Qed.
Lemma elevate_plain_s rnd (s : spline R) k e : OrderElevate_rnd_s rnd s k = Ok e -> exists t, OrderElevate (o := SOps_term rnd) (ov := Vts rnd) (num_spline_s s) k = Ok t /\ srel (means rnd) t e.
Proof.
  intros E. apply rres_ok. rewrite <- E. exact (OrderElevate_rel _ _ (plain_ring rnd) (plain_scalar rnd) _ _ k (srel_num_s rnd s)).
Qed.
Lemma add_plain_s rnd fuel (s rhs : spline R) e : spline_add_rnd_s rnd fuel s rhs = Ok e -> exists t, spline_add (o := SOps_term rnd) (ov := Vts rnd) fuel (num_spline_s s) (num_spline_s rhs) = Ok t /\ srel (means rnd) t e.
Proof.
  intros E. apply rres_ok. rewrite <- E. exact (spline_add_rel _ _ (plain_ring rnd) (plain_scalar rnd) fuel _ _ _ _ (srel_num_s rnd s) (srel_num_s rnd rhs)).
Qed.
Lemma add_assign_plain_s rnd fuel (s rhs : spline R) e : spline_add_assign_rnd_s rnd fuel s rhs = Ok e -> exists t, spline_add_assign (o := SOps_term rnd) (ov := Vts rnd) fuel (num_spline_s s) (num_spline_s rhs) = Ok t /\ srel (means rnd) t e.
Proof.
  intros E. apply rres_ok. rewrite <- E. exact (spline_add_assign_rel _ _ (plain_ring rnd) (plain_scalar rnd) fuel _ _ _ _ (srel_num_s rnd s) (srel_num_s rnd rhs)).
Qed.
Lemma sub_assign_plain_s rnd fuel (s rhs : spline R) e : spline_sub_assign_rnd_s rnd fuel s rhs = Ok e -> exists t, spline_sub_assign (o := SOps_term rnd) (ov := Vts rnd) fuel (num_spline_s s) (num_spline_s rhs) = Ok t /\ srel (means rnd) t e.
Proof.
  intros E. apply rres_ok. rewrite <- E. exact (spline_sub_assign_rel _ _ (plain_ring rnd) (plain_scalar rnd) fuel _ _ _ _ (srel_num_s rnd s) (srel_num_s rnd rhs)).
Qed.
Lemma derivative_plain_s rnd MAXB (s : spline R) orders e : DerivativeWRT_rnd_s rnd MAXB s orders = Ok e -> exists t, DerivativeWRT (o := SOps_term rnd) (ov := Vts rnd) MAXB (num_spline_s s) orders = Ok t /\ srel (means rnd) t e.
Proof.
  intros E. apply rres_ok. rewrite <- E. exact (DerivativeWRT_rel _ _ (plain_ring rnd) (plain_scalar rnd) MAXB _ _ orders (srel_num_s rnd s)).
Qed.
Lemma split_plain_s rnd (s : spline R) x k l r : SplitAtPosition_rnd_s rnd s x k = Ok [l; r] ->
  exists tl tr, SplitAtPosition (o := SOps_term rnd) (ov := Vts rnd) (num_spline_s s) (Num x) k = Ok [tl; tr] /\ srel (means rnd) tl l /\ srel (means rnd) tr r.
Proof.
  intros E. pose proof (SplitAtPosition_rel _ _ (plain_ring rnd) (plain_scalar rnd) _ _ (Num x) x k (srel_num_s rnd s) (m_num rnd x) (slt_plain rnd x)) as H.
  unfold SplitAtPosition_rnd_s in E. rewrite E in H. apply rres_ok in H. destruct H as (ts & Et & H).
  inversion H as [|tl ? tr' ? H1 H2]; subst. inversion H2 as [|tr ? n' ? H3 H4]; subst. inversion H4; subst. eauto.
Qed.
Lemma c111_plain_scalar : forall rnd MAXB fuel (s rhs : spline R) k x orders e l r,
  (OrderElevate_rnd_s rnd s k = Ok e -> OrderElevate_fma_s rnd s k e) /\
  (spline_add_rnd_s rnd fuel s rhs = Ok e -> spline_add_fma_s rnd fuel s rhs e) /\
  (spline_add_assign_rnd_s rnd fuel s rhs = Ok e -> spline_add_assign_fma_s rnd fuel s rhs e) /\
  (spline_sub_assign_rnd_s rnd fuel s rhs = Ok e -> spline_sub_assign_fma_s rnd fuel s rhs e) /\
  (SplitAtPosition_rnd_s rnd s x k = Ok [l; r] -> SplitAtPosition_fma_s rnd s x k l r) /\
  (DerivativeWRT_rnd_s rnd MAXB s orders = Ok e -> DerivativeWRT_fma_s rnd MAXB s orders e).
Proof.
  intros rnd MAXB fuel s rhs k x orders e l r. split; [|split; [|split; [|split; [|split]]]]; intros E.
  - apply elevate_plain_s in E. destruct E as (t & E & H). exists t. auto using srel_means_s.
  - apply add_plain_s in E. destruct E as (t & E & H). exists t. auto using srel_means_s.
  - apply add_assign_plain_s in E. destruct E as (t & E & H). exists t. auto using srel_means_s.
  - apply sub_assign_plain_s in E. destruct E as (t & E & H). exists t. auto using srel_means_s.
  - apply split_plain_s in E. destruct E as (tl & tr & E & H1 & H2). exists tl, tr. auto using srel_means_s.
  - apply derivative_plain_s in E. destruct E as (t & E & H). exists t. auto using srel_means_s.
Qed.
Lemma c111_elevate_scalar : forall p rnd (s : spline R) k e, (0 < p)%nat -> nearest p rnd ->
  wf s -> (k < length (degrees s))%nat ->
  (Z.of_nat (nth k (degrees s) 0%nat + 1) < 2 ^ Z.of_nat p)%Z ->
  (Z.of_nat (n_coeffs (upd_list (degrees s) k (S (nth k (degrees s) 0%nat)))) < 2 ^ 31)%Z ->
  OrderElevate_fma_s rnd s k e ->
  exists e0, OrderElevate s k = Ok e0 /\ wf e /\
    degrees e = upd_list (degrees s) k (S (nth k (degrees s) 0%nat)) /\ degrees e0 = degrees e /\
    forall B, coeff_bound s B ->
      (forall i, (i < n_coeffs (degrees e))%nat ->
        Rabs (nth i (control_points e) 0 - nth i (control_points e0) 0) <= 3 * gamma p 5 * B) /\
      forall xs, length xs = length (degrees s) -> in_unit_box xs ->
        Rabs (value_at e xs - value_at s xs) <= 3 * gamma p 5 * B.
Proof.
  intros p rnd s k e Hp HR Hw Hk Hq Hs (t & E & He).
  destruct (some_bound s) as (B0 & HB0).
  destruct (c81_elevate_scalar p rnd s k Hp HR Hw Hk Hq Hs B0 HB0) as (e1 & e0 & E1 & E0 & W1 & D1 & D0 & _).
  destruct (elevate_plain_s _ _ _ _ E1) as (t1 & Et & Rt). rewrite E in Et. injection Et as <-.
  assert (Wt : wf t) by (eapply srel_wf; eauto). assert (Dt := sr_deg _ _ _ Rt). assert (De : degrees e = degrees t) by apply He.
  exists e0. split; auto. split; [eapply means_wf_s; eauto|]. split; [congruence|]. split; [congruence|]. intros B HB.
  destruct (elevate_track p rnd Hp HR (ov := VOps_scalar R (o := SOps_R)) (ow := Vts rnd) false (fun q : R => q) (fun q : term => q) (fun _ _ => eq_refl) (fun _ _ => eq_refl)
    (fun _ _ => eq_refl) (fun _ _ => eq_refl) s (num_spline_s s) s k 0 B) as (t' & x' & E' & E0' & Dx & [_ Wx Dt' Lx Sx Bx Nx]); auto; [|lra|].
  { apply (numbers_track rnd (ov := VOps_scalar R (o := SOps_R)) (ow := Vts rnd) (fun q : R => q) (fun q : term => q)); auto using num_numbers_s, below_coeff. }
  rewrite E in E'. injection E' as <-. rewrite E0 in E0'. injection E0' as <-.
  pose proof (means_shows_s rnd t e Wt He) as Sh.
  replace (0 + gamma p 5 * (3 * (B + 0))) with (3 * gamma p 5 * B) in Nx by ring.
  split; [rewrite De, Dt'; apply (shows_near rnd (ov := VOps_scalar R (o := SOps_R)) (ow := Vts rnd) (fun q : R => q) (fun q : term => q) t); auto|].
  intros xs HX HU. rewrite <- (Sx xs HX).
  apply (shows_values rnd (ov := VOps_scalar R (o := SOps_R)) (ow := Vts rnd) (fun q : R => q) (fun q : term => q) (fun _ _ => eq_refl) (fun _ _ => eq_refl) t); auto. congruence.
Qed.
Lemma c111_add_scalar : forall p rnd fuel (s rhs r : spline R), (0 < p)%nat -> nearest p rnd ->
  wf s -> wf rhs -> length (degrees rhs) = length (degrees s) ->
  (Z.of_nat (list_max (max_degs (degrees s) (degrees rhs))) < 2 ^ Z.of_nat p)%Z ->
  (Z.of_nat (n_coeffs (max_degs (degrees s) (degrees rhs))) < 2 ^ 31)%Z ->
  (list_max (max_degs (degrees s) (degrees rhs)) < fuel)%nat -> (2 <= fuel)%nat ->
  spline_add_fma_s rnd fuel s rhs r ->
  wf r /\ degrees r = max_degs (degrees s) (degrees rhs) /\
  forall B1 B2, coeff_bound s B1 -> coeff_bound rhs B2 ->
    forall xs, length xs = length (degrees s) -> in_unit_box xs ->
      Rabs (value_at r xs - (value_at s xs + value_at rhs xs)) <=
        sum_error p (elevations (degrees s) (degrees rhs)) (elevations (degrees rhs) (degrees s)) B1 B2.
Proof.
  intros p rnd fuel s rhs r Hp HR Hw Hwr HL Ht Hs Hf Hf2 (t & E & He).
  destruct (some_bound s) as (B01 & HB01). destruct (some_bound rhs) as (B02 & HB02).
  destruct (c81_add_scalar p rnd fuel s rhs Hp HR Hw Hwr HL Ht Hs Hf Hf2 B01 B02 HB01 HB02) as (r1 & E1 & W1 & D1 & _).
  destruct (add_plain_s _ _ _ _ _ E1) as (t1 & Et & Rt). rewrite E in Et. injection Et as <-.
  assert (Wt : wf t) by (eapply srel_wf; eauto). assert (Dt := sr_deg _ _ _ Rt). assert (De : degrees r = degrees t) by apply He.
  split; [eapply means_wf_s; eauto|]. split; [congruence|]. intros B1 B2 HB1 HB2.
  pose proof (add_track p rnd Hp HR (ov := VOps_scalar R (o := SOps_R)) (ow := Vts rnd) false (fun q : R => q) (fun q : term => q) (fun _ _ => eq_refl) (fun _ _ => eq_refl)
    (fun _ _ => eq_refl) (fun _ _ => eq_refl) fuel s rhs (num_spline_s s) (num_spline_s rhs) B1 B2 Hw Hwr (num_numbers_s rnd s Hw) (num_numbers_s rnd rhs Hwr) HL Ht Hs Hf Hf2
    (below_coeff s B1 Hw HB1) (below_coeff rhs B2 Hwr HB2)) as H.
  destruct H as (t' & E' & D' & K).
  rewrite E in E'. injection E' as <-. apply (K r (means_shows_s rnd t r Wt He)).
Qed.
Lemma c111_add_assign_scalar : forall p rnd fuel (s rhs r : spline R), (0 < p)%nat -> nearest p rnd ->
  wf s -> wf rhs -> length (degrees rhs) = length (degrees s) ->
  (Z.of_nat (list_max (max_degs (degrees s) (degrees rhs))) < 2 ^ Z.of_nat p)%Z ->
  (Z.of_nat (n_coeffs (max_degs (degrees s) (degrees rhs))) < 2 ^ 31)%Z ->
  (list_max (max_degs (degrees s) (degrees rhs)) < fuel)%nat ->
  spline_add_assign_fma_s rnd fuel s rhs r ->
  wf r /\ degrees r = max_degs (degrees s) (degrees rhs) /\
  forall B1 B2, coeff_bound s B1 -> coeff_bound rhs B2 ->
    forall xs, length xs = length (degrees s) -> in_unit_box xs ->
      Rabs (value_at r xs - (value_at s xs + value_at rhs xs)) <=
        sum_error p (elevations (degrees s) (degrees rhs)) (elevations (degrees rhs) (degrees s)) B1 B2.
Proof.
  intros p rnd fuel s rhs r Hp HR Hw Hwr HL Ht Hs Hf (t & E & He).
  destruct (some_bound s) as (B01 & HB01). destruct (some_bound rhs) as (B02 & HB02).
  destruct (c81_add_assign_scalar p rnd fuel s rhs Hp HR Hw Hwr HL Ht Hs Hf B01 B02 HB01 HB02) as (r1 & E1 & W1 & D1 & _).
  destruct (add_assign_plain_s _ _ _ _ _ E1) as (t1 & Et & Rt). rewrite E in Et. injection Et as <-.
  assert (Wt : wf t) by (eapply srel_wf; eauto). assert (Dt := sr_deg _ _ _ Rt). assert (De : degrees r = degrees t) by apply He.
  split; [eapply means_wf_s; eauto|]. split; [congruence|]. intros B1 B2 HB1 HB2.
  pose proof (add_assign_track p rnd Hp HR (ov := VOps_scalar R (o := SOps_R)) (ow := Vts rnd) false (fun q : R => q) (fun q : term => q) (fun _ _ => eq_refl) (fun _ _ => eq_refl)
    (fun _ _ => eq_refl) (fun _ _ => eq_refl) (fun _ _ => eq_refl) (fun _ _ => eq_refl) fuel s rhs (num_spline_s s) (num_spline_s rhs) B1 B2 Hw Hwr (num_numbers_s rnd s Hw) (num_numbers_s rnd rhs Hwr) HL Ht Hs Hf
    (below_coeff s B1 Hw HB1) (below_coeff rhs B2 Hwr HB2)) as H.
  apply proj1 in H. destruct H as (t' & E' & D' & K).
  rewrite E in E'. injection E' as <-. apply (K r (means_shows_s rnd t r Wt He)).
Qed.
Lemma c111_sub_assign_scalar : forall p rnd fuel (s rhs r : spline R), (0 < p)%nat -> nearest p rnd ->
  wf s -> wf rhs -> length (degrees rhs) = length (degrees s) ->
  (Z.of_nat (list_max (max_degs (degrees s) (degrees rhs))) < 2 ^ Z.of_nat p)%Z ->
  (Z.of_nat (n_coeffs (max_degs (degrees s) (degrees rhs))) < 2 ^ 31)%Z ->
  (list_max (max_degs (degrees s) (degrees rhs)) < fuel)%nat ->
  spline_sub_assign_fma_s rnd fuel s rhs r ->
  wf r /\ degrees r = max_degs (degrees s) (degrees rhs) /\
  forall B1 B2, coeff_bound s B1 -> coeff_bound rhs B2 ->
    forall xs, length xs = length (degrees s) -> in_unit_box xs ->
      Rabs (value_at r xs - (value_at s xs - value_at rhs xs)) <=
        sum_error p (elevations (degrees s) (degrees rhs)) (elevations (degrees rhs) (degrees s)) B1 B2.
Proof.
  intros p rnd fuel s rhs r Hp HR Hw Hwr HL Ht Hs Hf (t & E & He).
  destruct (some_bound s) as (B01 & HB01). destruct (some_bound rhs) as (B02 & HB02).
  destruct (c81_sub_assign_scalar p rnd fuel s rhs Hp HR Hw Hwr HL Ht Hs Hf B01 B02 HB01 HB02) as (r1 & E1 & W1 & D1 & _).
  destruct (sub_assign_plain_s _ _ _ _ _ E1) as (t1 & Et & Rt). rewrite E in Et. injection Et as <-.
  assert (Wt : wf t) by (eapply srel_wf; eauto). assert (Dt := sr_deg _ _ _ Rt). assert (De : degrees r = degrees t) by apply He.
  split; [eapply means_wf_s; eauto|]. split; [congruence|]. intros B1 B2 HB1 HB2.
  pose proof (add_assign_track p rnd Hp HR (ov := VOps_scalar R (o := SOps_R)) (ow := Vts rnd) false (fun q : R => q) (fun q : term => q) (fun _ _ => eq_refl) (fun _ _ => eq_refl)
    (fun _ _ => eq_refl) (fun _ _ => eq_refl) (fun _ _ => eq_refl) (fun _ _ => eq_refl) fuel s rhs (num_spline_s s) (num_spline_s rhs) B1 B2 Hw Hwr (num_numbers_s rnd s Hw) (num_numbers_s rnd rhs Hwr) HL Ht Hs Hf
    (below_coeff s B1 Hw HB1) (below_coeff rhs B2 Hwr HB2)) as H.
  apply proj2 in H. destruct H as (t' & E' & D' & K).
  rewrite E in E'. injection E' as <-. apply (K r (means_shows_s rnd t r Wt He)).
Qed.
Lemma c111_split_scalar : forall p rnd (s : spline R) x k l r, (0 < p)%nat -> nearest p rnd ->
  wf s -> (k < length (degrees s))%nat -> 0 < x < 1 -> SplitAtPosition_fma_s rnd s x k l r ->
  exists l0 r0, SplitAtPosition s x k = Ok [l0; r0] /\
    wf l /\ wf r /\ degrees l = degrees s /\ degrees r = degrees s /\
    forall B, coeff_bound s B ->
      (forall i, (i < n_coeffs (degrees s))%nat ->
        Rabs (nth i (control_points l) 0 - nth i (control_points l0) 0) <= gamma p (3 * nth k (degrees s) 0%nat) * B /\
        Rabs (nth i (control_points r) 0 - nth i (control_points r0) 0) <= gamma p (3 * nth k (degrees s) 0%nat) * B) /\
      forall xs, length xs = length (degrees s) -> in_unit_box xs ->
        Rabs (value_at l xs - value_at s (upd_list xs k (x * nth k xs 0))) <=
          gamma p (3 * nth k (degrees s) 0%nat) * B /\
        Rabs (value_at r xs - value_at s (upd_list xs k (x + (1 - x) * nth k xs 0))) <=
          gamma p (3 * nth k (degrees s) 0%nat) * B.
Proof.
  intros p rnd s x k l r Hp HR Hw Hk Hx (tl & tr & E & Hl & Hr).
  destruct (some_bound s) as (B0 & HB0).
  destruct (c82_split_scalar p rnd s x k Hp HR Hw Hk Hx B0 HB0) as (l1 & r1 & l0 & r0 & E1 & E0 & W1 & W2 & D1 & D2 & _).
  destruct (split_plain_s _ _ _ _ _ _ E1) as (tl1 & tr1 & Et & R1 & R2). rewrite E in Et. injection Et as <- <-.
  assert (Wl : wf tl) by (eapply srel_wf; eauto). assert (Wr : wf tr) by (eapply srel_wf; eauto).
  assert (Dl := sr_deg _ _ _ R1). assert (Dr := sr_deg _ _ _ R2).
  assert (Del : degrees l = degrees tl) by apply (proj1 Hl). assert (Der : degrees r = degrees tr) by apply (proj1 Hr).
  exists l0, r0. split; auto. split; [eapply means_wf_s; [exact Wl|exact Hl]|]. split; [eapply means_wf_s; [exact Wr|exact Hr]|]. split; [congruence|]. split; [congruence|]. intros B HB.
  destruct (split_track p rnd Hp HR (ov := VOps_scalar R (o := SOps_R)) (ow := Vts rnd) false (fun q : R => q) (fun q : term => q) (fun _ _ => eq_refl) (fun _ _ => eq_refl) (fun _ _ => eq_refl) (fun _ _ => eq_refl) (num_spline_s s) s x k B Hw (num_numbers_s rnd s Hw) Hk Hx (below_coeff s B Hw HB))
    as (tl' & tr' & l0' & r0' & E' & E0' & (_ & _ & Wl0 & Wr0) & (_ & _ & Dl0 & Dr0) & N1 & N2 & HV).
  rewrite E in E'. injection E' as <- <-. rewrite E0 in E0'. injection E0' as <- <-.
  pose proof (means_shows_s rnd tl l Wl Hl) as S1. pose proof (means_shows_s rnd tr r Wr Hr) as S2.
  split.
  - intros i Hi. split.
    + apply (shows_near rnd (ov := VOps_scalar R (o := SOps_R)) (ow := Vts rnd) (fun q : R => q) (fun q : term => q) tl); auto; congruence.
    + apply (shows_near rnd (ov := VOps_scalar R (o := SOps_R)) (ow := Vts rnd) (fun q : R => q) (fun q : term => q) tr); auto; congruence.
  - intros xs HX HU. destruct (HV xs HX) as (V1 & V2). split; [rewrite <- V1|rewrite <- V2].
    + apply (shows_values rnd (ov := VOps_scalar R (o := SOps_R)) (ow := Vts rnd) (fun q : R => q) (fun q : term => q) (fun _ _ => eq_refl) (fun _ _ => eq_refl) tl); auto; congruence.
    + apply (shows_values rnd (ov := VOps_scalar R (o := SOps_R)) (ow := Vts rnd) (fun q : R => q) (fun q : term => q) (fun _ _ => eq_refl) (fun _ _ => eq_refl) tr); auto; congruence.
Qed.
Lemma c111_derivative_scalar : forall p rnd MAXB (s : spline R) orders r, (0 < p)%nat -> nearest p rnd -> (MAXB <= 68)%nat ->
  wf s -> length orders = length (degrees s) -> Forall2 le orders (degrees s) -> Forall (fun k => (k < MAXB)%nat) orders ->
  DerivativeWRT_fma_s rnd MAXB s orders r ->
  exists r0, DerivativeWRT MAXB s orders = Ok r0 /\
    wf r /\ wf r0 /\ degrees r = map2 Nat.sub (degrees s) orders /\ degrees r0 = degrees r /\
    forall B, coeff_bound s B ->
      (forall i, (i < n_coeffs (degrees r))%nat ->
        Rabs (nth i (control_points r) 0 - nth i (control_points r0) 0) <=
          gamma p (derivative_roundings orders) * (derivative_scale (degrees s) orders * B)) /\
      forall xs, length xs = length (degrees s) -> in_unit_box xs ->
        Rabs (value_at r xs - value_at r0 xs) <=
          gamma p (derivative_roundings orders) * (derivative_scale (degrees s) orders * B).
Proof.
  intros p rnd MAXB s orders r Hp HR HMB Hw HL Hle HM (t & E & He).
  destruct (some_bound s) as (B0 & HB0).
  destruct (c83_derivative_scalar p rnd MAXB s orders Hp HR HMB Hw HL Hle HM B0 HB0) as (r1 & r0 & E1 & E0 & W1 & W0 & D1 & D0 & _).
  destruct (derivative_plain_s _ _ _ _ _ E1) as (t1 & Et & Rt). rewrite E in Et. injection Et as <-.
  assert (Wt : wf t) by (eapply srel_wf; eauto). assert (Dt := sr_deg _ _ _ Rt). assert (De : degrees r = degrees t) by apply He.
  exists r0. split; auto. split; [eapply means_wf_s; eauto|]. split; auto. split; [congruence|]. split; [congruence|]. intros B HB.
  destruct (derivative_track p rnd Hp HR (ov := VOps_scalar R (o := SOps_R)) (ow := Vts rnd) false (fun q : R => q) (fun q : term => q) (fun _ _ => eq_refl) (fun _ _ => eq_refl) (fun _ _ => eq_refl) (fun _ _ => eq_refl) MAXB (num_spline_s s) s orders B HMB Hw (num_numbers_s rnd s Hw) eq_refl HL Hle HM
    (below_coeff s B Hw HB)) as (t' & r0' & E' & E0' & _ & _ & _ & Dr0 & N0).
  rewrite E in E'. injection E' as <-. rewrite E0 in E0'. injection E0' as <-.
  pose proof (means_shows_s rnd t r Wt He) as Sh.
  split; [rewrite De; replace (degrees t) with (degrees r0) by congruence; apply (shows_near rnd (ov := VOps_scalar R (o := SOps_R)) (ow := Vts rnd) (fun q : R => q) (fun q : term => q) t); auto; congruence|].
  intros xs HX HU. apply (shows_values rnd (ov := VOps_scalar R (o := SOps_R)) (ow := Vts rnd) (fun q : R => q) (fun q : term => q) (fun _ _ => eq_refl) (fun _ _ => eq_refl) t); auto; [congruence|]. rewrite Dr0, length_map2; auto.
Qed.
