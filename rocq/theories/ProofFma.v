(** Error propagation when multiplications and additions may be contracted. *)
From Coq Require Import Arith Lia List ZArith NArith Bool Reals Lra Psatz.
From Verif Require Import Prelude Scalar Spec SpecSpline Sums Coord ModelBasis ModelSpline ModelRational SpecRational
  ModelRound SpecRound ProofIndex ProofBasis ProofEval ProofParam ProofCasteljau ProofRound ProofRoundEval ClaimsU ModelFma.
Import ListNotations.
Local Open Scope R_scope.

Section Fma.
Context (rnd : R -> R).
Notation ot := (SOps_term rnd).
Notation mean := (means rnd).

Definition arg (t : term) (v : R) : Prop := mean t v \/ exact rnd t v.
Lemma num_inv x v : arg (Num x) v -> v = x.
Proof. intros [H|H]; inversion H; auto. Qed.
Lemma num_mean x v : mean (Num x) v -> v = x.
Proof. intros H. inversion H; auto. Qed.
Lemma add_inv a b v : mean (Add a b) v -> exists x y, arg a x /\ arg b y /\ v = rnd (x + y).
Proof. unfold arg. intros H. inversion H; subst; eauto 8. Qed.
Lemma sub_inv a b v : mean (Sub a b) v -> exists x y, arg a x /\ arg b y /\ v = rnd (x - y).
Proof. unfold arg. intros H. inversion H; subst; eauto 8. Qed.
Lemma mul_mean a b v : mean (Mul a b) v -> exists x y, mean a x /\ mean b y /\ v = rnd (x * y).
Proof. intros H. inversion H; subst; eauto 8. Qed.
Lemma mul_inv a b v : arg (Mul a b) v -> exists x y, mean a x /\ mean b y /\ (v = x * y \/ v = rnd (x * y)).
Proof. intros [H|H]; inversion H; subst; eauto 8. Qed.
Lemma div_inv a b v : mean (Div a b) v -> exists x y, mean a x /\ mean b y /\ y <> 0 /\ v = rnd (x / y).
Proof. intros H. inversion H; subst; eauto 8. Qed.
Lemma add_arg a b v : arg (Add a b) v -> mean (Add a b) v.
Proof. intros [H|H]; auto. inversion H. Qed.

(** The two orders in which a point and a number multiply their factors. *)
Definition VOps_sw (sw : bool) : VOps term term := {|
  v0 := Num 0; vadd := Add; vsub := Sub;
  vopp := fun x => if sw then Mul x (Opp (Num 1)) else Opp x;
  vscale := fun c x => if sw then Mul x c else Mul c x;
  veqb := seqb (SOps := ot)
|}.
Lemma scale_inv sw c x v : arg (vscale (VOps := VOps_sw sw) c x) v ->
  exists a b, mean c a /\ mean x b /\ (v = a * b \/ v = rnd (a * b)).
Proof.
  destruct sw; cbn [vscale VOps_sw]; intros H; apply mul_inv in H; destruct H as (a & b & Ha & Hb & E); [exists b, a|exists a, b].
  - rewrite (Rmult_comm b a). auto.
  - auto.
Qed.

Section Err.
Context (u : R) (Hu : 0 <= u) (Hr : forall x, Rabs (rnd x - x) <= u * Rabs x).

Lemma Er_arg g y v x A : 1 <= g -> Er g y x A -> v = y \/ v = rnd y -> Er (g * (1 + u)) v x A.
Proof using Hu Hr.
  intros Hg H [->| ->]; [|apply Er_rnd; auto]. apply Er_le with g; auto. nra.
Qed.
Notation dcf sw := (dc (o := ot) (ov := VOps_sw sw)).
Notation dctf sw := (dct (o := ot) (ov := VOps_sw sw)).
(** All values of [t] approximate [x]. *)
Definition EM (g : R) (t : term) (x A : R) : Prop := forall v, mean t v -> Er g v x A.

Lemma one_minus x v : mean (Sub (Num 1) (Num x)) v -> v = rnd (1 - x).
Proof. intros H. apply sub_inv in H. destruct H as (a & b & Ha & Hb & ->). apply num_inv in Ha, Hb. now subst. Qed.

Lemma dc_fma sw x f f' F r : 0 <= x <= 1 -> forall k j, (forall i, (j <= i <= j + r)%nat -> EM ((1 + u) ^ k) (f' i) (f i) (F i)) ->
  EM ((1 + u) ^ (k + 3 * r)) (dcf sw (Num x) f' r j) (dc x f r j) (dc x F r j).
Proof using Hu Hr.
  intros Hx k. induction r; intros j H; [rewrite Nat.mul_0_r, Nat.add_0_r; apply H; lia|].
  intros v Hv. cbn [dc] in Hv. apply add_inv in Hv. destruct Hv as (P & Q & HP & HQ & ->).
  apply scale_inv in HP, HQ. destruct HP as (c & a & Hc & Ha & EP), HQ as (c' & b & Hc' & Hb & EQ).
  apply one_minus in Hc. apply num_mean in Hc'. subst c c'.
  cbn [dc vadd vscale VOps_scalar sadd smul ssub s1 SOps_R]. replace (k + 3 * S r)%nat with (k + 3 * r + 1 + 1 + 1)%nat by lia.
  set (m := (k + 3 * r)%nat) in *. rewrite (pow_add _ _ 1), pow_1.
  assert (Ea := IHr j ltac:(intros; apply H; lia) _ Ha). assert (Eb := IHr (S j) ltac:(intros; apply H; lia) _ Hb).
  apply Er_rnd; auto. apply Er_add.
  - rewrite pow_add, pow_1. eapply Er_arg; [apply u_pow; auto| |exact EP]. rewrite pow_add, pow_1, Rmult_comm.
    apply Er_mul; auto; try (apply u_pow; auto); try lra.
    rewrite <- (Rmult_1_l (1 + u)). apply Er_rnd; auto. apply Er_exact_pos. lra.
  - apply Er_le with ((1 + u) ^ (m + 1)); [apply u_pow_le; auto; lia|]. rewrite pow_add, pow_1.
    eapply Er_arg; [apply u_pow; auto| |exact EQ].
    rewrite <- (Rmult_1_l ((1 + u) ^ m)). apply Er_mul; auto; try (apply u_pow; auto); try lra. apply Er_exact_pos. lra.
Qed.
Lemma dct_fma sw degs xs f f' F k : length xs = length degs -> Forall (fun x => 0 <= x <= 1) xs ->
  (forall i, (i < n_coeffs degs)%nat -> EM ((1 + u) ^ k) (f' i) (f i) (F i)) ->
  EM ((1 + u) ^ (k + 3 * list_sum degs)) (dctf sw degs (map Num xs) f') (dct degs xs f) (dct degs xs F).
Proof using Hu Hr.
  revert xs f f' F k; induction degs as [|p degs IH]; intros [|x xs] f f' F k HL HX H; try discriminate.
  - simpl. rewrite Nat.add_0_r. apply H. unfold n_coeffs; simpl; lia.
  - cbn [dct map]. replace (k + 3 * list_sum (p :: degs))%nat with (k + 3 * p + 3 * list_sum degs)%nat by (simpl; lia).
    inversion HX; subst. apply IH; auto. intros m Hm. apply dc_fma; auto. intros i Hi. apply H. rewrite n_coeffs_cons. nia.
Qed.

Context (Hu1 : u < 1).
Lemma Sr_arg k y v x : 0 <= x -> Sr u k y x -> v = y \/ v = rnd y -> Sr u (S k) v x.
Proof using Hu Hu1 Hr.
  intros Hx H [->| ->]; [|apply Sr_rnd; auto]. apply Sr_le with k; auto.
Qed.
Definition SM (k : nat) (t : term) (x : R) : Prop := forall v, mean t v -> Sr u k v x.
Lemma dc_fma_sr sw x f f' r k : 0 <= x <= 1 -> forall j,
  (forall i, (j <= i <= j + r)%nat -> 0 <= f i /\ SM k (f' i) (f i)) ->
  SM (k + 3 * r) (dcf sw (Num x) f' r j) (dc x f r j).
Proof using Hu Hu1 Hr.
  intros Hx. induction r; intros j H; [rewrite Nat.mul_0_r, Nat.add_0_r; apply H; lia|].
  assert (Na : 0 <= dc x f r j) by (apply dc_nonneg; auto; intros; apply H; lia).
  assert (Nb : 0 <= dc x f r (S j)) by (apply dc_nonneg; auto; intros; apply H; lia).
  intros v Hv. cbn [dc] in Hv. apply add_inv in Hv. destruct Hv as (P & Q & HP & HQ & ->).
  apply scale_inv in HP, HQ. destruct HP as (c & a & Hc & Ha & EP), HQ as (c' & b & Hc' & Hb & EQ).
  apply one_minus in Hc. apply num_mean in Hc'. subst c c'.
  cbn [dc vadd vscale VOps_scalar sadd smul ssub s1 SOps_R]. replace (k + 3 * S r)%nat with (S (S (S (k + 3 * r)))) by lia.
  set (m := (k + 3 * r)%nat) in *.
  assert (Ea := IHr j ltac:(intros; apply H; lia) _ Ha). assert (Eb := IHr (S j) ltac:(intros; apply H; lia) _ Hb).
  assert (0 <= (1 - x) * dc x f r j) by (apply Rmult_le_pos; lra). assert (0 <= x * dc x f r (S j)) by (apply Rmult_le_pos; lra).
  apply Sr_rnd; auto; [apply Rplus_le_le_0_compat; auto|]. apply Sr_add.
  - eapply Sr_arg; [auto| |exact EP]. change (S m) with (1 + m)%nat. apply Sr_mul; auto; [lra|]. apply Sr_rnd; auto; [lra|]. apply Sr_exact.
  - apply Sr_le with (S m); auto. eapply Sr_arg; [auto| |exact EQ]. change m with (0 + m)%nat at 1. apply Sr_mul; auto; [lra|]. apply Sr_exact.
Qed.
Lemma dct_fma_sr sw degs xs f f' k : length xs = length degs -> Forall (fun x => 0 <= x <= 1) xs ->
  (forall i, (i < n_coeffs degs)%nat -> 0 <= f i /\ SM k (f' i) (f i)) ->
  SM (k + 3 * list_sum degs) (dctf sw degs (map Num xs) f') (dct degs xs f).
Proof using Hu Hu1 Hr.
  revert xs f f' k; induction degs as [|p degs IH]; intros [|x xs] f f' k HL HX H; try discriminate.
  - simpl. rewrite Nat.add_0_r. apply H. unfold n_coeffs; simpl; lia.
  - cbn [dct map]. replace (k + 3 * list_sum (p :: degs))%nat with (k + 3 * p + 3 * list_sum degs)%nat by (simpl; lia).
    inversion HX; subst. apply IH; auto. intros m Hm. split.
    + apply dc_nonneg; auto. intros i Hi. apply H. rewrite n_coeffs_cons. nia.
    + apply dc_fma_sr; auto. intros i Hi. apply H. rewrite n_coeffs_cons. nia.
Qed.
End Err.

(** ** Coordinates *)
Lemma coord_t_pmap d f (a : point term d) k : (k < d)%nat -> coord (o := ot) d (pmap d f a) k = f (coord (o := ot) d a k).
Proof. unfold coord. revert k; induction d; intros [|k] H; simpl; auto; try lia. apply IHd; lia. Qed.
Lemma coord_t_pmap2 d f (a b : point term d) k : (k < d)%nat ->
  coord (o := ot) d (pmap2 d f a b) k = f (coord (o := ot) d a k) (coord (o := ot) d b k).
Proof. unfold coord. revert k; induction d; intros [|k] H; simpl; auto; try lia. apply IHd; lia. Qed.
Lemma coord_num d (p : point R d) k : (k < d)%nat -> coord (o := ot) d (num_point p) k = Num (coord d p k).
Proof. unfold coord, num_point. revert k; induction d; intros [|k] H; simpl; auto; try lia. apply IHd; lia. Qed.
Lemma num_v0 d : num_point (pconst d 0) = pconst d (Num 0).
Proof. unfold num_point. induction d; simpl; auto. f_equal. auto. Qed.
Notation Vt d := (VOps_point term d (o := ot)).
Lemma coord_dct_t d degs xs f k : (k < d)%nat ->
  coord (o := ot) d (dct (o := ot) (ov := Vt d) degs xs f) k =
  dct (o := ot) (ov := VOps_sw true) degs xs (fun i => coord (o := ot) d (f i) k).
Proof.
  intros Hk. apply (dct_hom (o := ot) (ov := Vt d) (ow := VOps_sw true) (fun p : point term d => coord (o := ot) d p k)).
  - intros a b. apply (coord_t_pmap2 d Add a b k Hk).
  - intros c a. apply (coord_t_pmap d (fun x => Mul x c) a k Hk).
Qed.
Lemma coord_cp d (s : spline (point R d)) i k : (k < d)%nat ->
  coord (o := ot) d (nth i (control_points (num_spline s)) (v0 (VOps := Vt d))) k = Num (coord d (nth i (control_points s) v0) k).
Proof.
  intros Hk. cbn [num_spline control_points v0 VOps_point s0 SOps_term]. rewrite <- num_v0, map_nth, coord_num by auto. reflexivity.
Qed.
Lemma wf_num d (s : spline (point R d)) : wf s -> wf (num_spline s).
Proof. intros (A & B & C & D). repeat split; auto. cbn [num_spline control_points degrees]. now rewrite map_length. Qed.
Lemma wf_num_s (s : spline R) : wf s -> wf (num_spline_s s).
Proof. intros (A & B & C & D). repeat split; auto. cbn [num_spline_s control_points degrees]. now rewrite map_length. Qed.

(** ** Basis functions: products only, hence one value *)
Definition single (t : term) (v : R) : Prop := forall w, mean t w <-> w = v.
Notation ornd := (SOps_rnd rnd).
Lemma single_num x : single (Num x) x.
Proof. intros w. split; [apply num_mean|intros ->; constructor]. Qed.
Lemma single_mul a b x y : single a x -> single b y -> single (Mul a b) (rnd (x * y)).
Proof.
  intros Ha Hb w. split.
  - intros H. apply mul_mean in H. destruct H as (v & v' & H1 & H2 & ->). apply Ha in H1. apply Hb in H2. now subst.
  - intros ->. constructor; [now apply Ha|now apply Hb].
Qed.
Lemma single_sub x : single (Sub (Num 1) (Num x)) (rnd (1 - x)).
Proof. intros w. split; [apply one_minus|intros ->; repeat constructor]. Qed.
Lemma Bernstein_single MAXB p x :
  rres (Forall2 single) (BernsteinEvaluate (o := ot) MAXB p (Num x)) (BernsteinEvaluate (o := ornd) MAXB p x).
Proof.
  unfold BernsteinEvaluate. eapply rres_bind; [apply rres_same|]. intros _ _ _. cbv zeta.
  assert (H1 : single (s1 (SOps := ot)) (s1 (SOps := ornd))) by apply single_num. assert (Hx := single_num x). assert (Hs := single_sub x).
  eapply (rres_bind (fun a b => Forall2 single (fst a) (fst b) /\ single (snd a) (snd b))).
  - apply rres_for_up; [split; simpl; auto|]. intros i (a & b) (a' & b') (Ha & Hb). simpl in Ha, Hb.
    eapply rres_bind; [apply rres_same|]. intros c ? <-. simpl. split; [apply Forall2_app; auto; constructor; auto|];
      apply single_mul; auto. apply single_num.
  - intros (a & b) (a' & b') (Ha & Hb). simpl in Ha, Hb.
    eapply (rres_bind (fun a b => Forall2 single (fst a) (fst b) /\ single (snd a) (snd b))).
    + apply rres_for_up; [split; simpl; auto|]. clear a b a' b' Ha Hb. intros i (a & b) (a' & b') (Ha & Hb). simpl in Ha, Hb.
      eapply rres_bind; [apply rres_get; exact Ha|]. intros e e' He.
      eapply rres_bind; [apply rres_set; [exact Ha|]; apply single_mul; eauto|]. intros l l' Hl. simpl. split; auto.
      apply single_mul; auto.
    + intros (c & d) (c' & d') (Hc & Hd). exact Hc.
Qed.
Lemma Combine_single k fs fs' r r' c c' : Forall2 (Forall2 single) fs fs' -> Forall2 single r r' -> single c c' ->
  rres (Forall2 single) (RecursiveCombine_ (o := ot) k fs r c) (RecursiveCombine_ (o := ornd) k fs' r' c').
Proof.
  intros Hf. revert r r' c c'. induction k; intros r r' c c' Hr Hc; cbn [RecursiveCombine_];
    (eapply rres_bind; [apply rres_get; exact Hf|]; intros l l' Hl; rewrite (F2_length _ _ _ Hl);
     apply rres_for_up; auto; intros i u u' Hu; eapply rres_bind; [apply rres_get; exact Hl|]; intros x x' Hx).
  - simpl. apply Forall2_app; auto. constructor; auto. apply single_mul; auto.
  - apply IHk; auto. apply single_mul; auto.
Qed.
Lemma get_map {A B} (f : A -> B) l i : rres (fun a b => a = f b) (get (map f l) i) (get l i).
Proof. apply rres_get. induction l; simpl; constructor; auto. Qed.
Lemma Basis_single {V W} MAXB (s : spline V) (s' : spline W) xs : degrees s = degrees s' ->
  rres (Forall2 single) (BasisFunctions (o := ot) MAXB s (map Num xs)) (BasisFunctions (o := ornd) MAXB s' xs).
Proof.
  intros Hd. unfold BasisFunctions. eapply (rres_bind (Forall2 (Forall2 single))).
  - unfold BasisFunctionContributions. rewrite Hd. apply rres_for_up; [apply F2_repeat; auto|].
    intros i l l' Hl. eapply rres_bind; [apply rres_same|]. intros p ? <-.
    eapply rres_bind; [apply get_map|]. intros x x' ->.
    eapply rres_bind; [apply Bernstein_single|]. intros b b' Hb. apply rres_set; auto.
  - intros f f' Hf. unfold RecursiveCombine. rewrite (F2_length _ _ _ Hf). apply Combine_single; auto.
    apply single_num.
Qed.

Section Acc.
Context (u : R) (Hu : 0 <= u) (Hr : forall x, Rabs (rnd x - x) <= u * Rabs x) (Hu1 : u < 1).
Lemma Accumulate_fma sw (K : nat) (b b' c : nat -> R) (f : nat -> term) : (forall y, rnd (0 + rnd y) = rnd y) -> forall n,
  (forall i, (i < n)%nat -> single (f i) (b' i) /\ 0 <= b i /\ Sr u K (b' i) (b i)) ->
  EM ((1 + u) ^ (K + n)) (vsum (ov := VOps_sw sw) n (fun i => vscale (VOps := VOps_sw sw) (f i) (Num (c i))))
    (vsum n (fun i => b i * c i)) (vsum n (fun i => b i * Rabs (c i))).
Proof using Hu Hu1 Hr.
  intros H0. induction n as [|n IH]; intros H v Hv.
  - apply num_mean in Hv. subst v. change (Er ((1 + u) ^ (K + 0)) 0 0 0). unfold Er. rewrite Rminus_0_r, Rabs_R0, Rmult_0_r. lra.
  - cbn [vsum] in Hv. apply add_inv in Hv. destruct Hv as (P & Q & HP & HQ & ->).
    apply scale_inv in HQ. destruct HQ as (x & y & Hx & Hy & EQ). destruct (H n) as (S1 & A & B); [lia|].
    apply S1 in Hx. apply num_mean in Hy. subst x y.
    assert (T0 : Er ((1 + u) ^ K) (b' n * c n) (b n * c n) (b n * Rabs (c n))).
    { rewrite <- (Rmult_1_r ((1 + u) ^ K)). apply Er_mul; [apply u_pow; auto|lra| |apply Er_exact]. apply (Sr_Er u); auto. }
    assert (T : Er ((1 + u) ^ (K + 1)) Q (b n * c n) (b n * Rabs (c n))).
    { rewrite pow_add, pow_1. eapply (Er_arg u Hu Hr); [apply u_pow; auto| |exact EQ]. auto. }
    cbn [vsum vadd VOps_scalar sadd SOps_R]. destruct n as [|n].
    + cbn [vsum v0 VOps_sw] in HP. apply num_inv in HP. subst P. cbn [vsum v0 VOps_scalar s0 SOps_R]. rewrite !Rplus_0_l.
      rewrite pow_add, pow_1. destruct EQ as [->| ->]; [apply Er_rnd; auto|]. rewrite <- (Rplus_0_l (rnd (b' 0%nat * c 0%nat))), H0. apply Er_rnd; auto.
    + replace (K + S (S n))%nat with (K + S n + 1)%nat by lia. rewrite pow_add, pow_1. apply Er_rnd; auto. apply Er_add.
      * apply IH; [intros; apply H; lia|]. apply (add_arg _ _ _ HP).
      * eapply Er_le; [|exact T]. apply u_pow_le; auto. lia.
Qed.
End Acc.
Lemma coord_vsum_t d n (f : nat -> point term d) k : (k < d)%nat ->
  coord (o := ot) d (vsum (ov := Vt d) n f) k = vsum (ov := VOps_sw true) n (fun i => coord (o := ot) d (f i) k).
Proof.
  intros Hk. induction n; cbn [vsum].
  - change (v0 (VOps := Vt d)) with (pconst d (Num 0)). rewrite <- num_v0, coord_num by auto. rewrite (coord_const (o := SOps_R)) by auto. reflexivity.
  - cbn [vadd VOps_sw]. rewrite <- IHn. apply (coord_t_pmap2 d Add _ _ k Hk).
Qed.

(** ** The result without contraction *)
Lemma rel_plain : rel_ring (o1 := ot) (o2 := ornd) mean.
Proof. split; cbn [s0 s1 sadd ssub smul sofN SOps_term SOps_rnd]; intros; constructor; auto. Qed.
Fixpoint pmeans (d : nat) : point term d -> point R d -> Prop :=
  match d with O => fun _ _ => True | S d' => fun p q => mean (fst p) (fst q) /\ pmeans d' (snd p) (snd q) end.
Lemma pmeans_point d t e : pmeans d t e -> means_point rnd t e.
Proof.
  unfold means_point, coord. induction d; intros H k Hk; [lia|]. destruct H as (H1 & H2). destruct k; simpl; auto. apply IHd; auto. lia.
Qed.
Lemma rel_plain_point d : rel_mod (ov1 := Vt d) (ov2 := VOps_point R d (o := ornd)) mean (pmeans d).
Proof.
  split; simpl.
  - induction d; simpl; auto. split; auto. constructor.
  - induction d; simpl; auto. intros a b a' b' (H1 & H2) (H3 & H4). split; auto. constructor; auto.
  - induction d; simpl; auto. intros c a c' a' Hc (H1 & H2). split; auto. constructor; auto.
Qed.
Lemma rel_plain_scalar : rel_mod (ov1 := VOps_scalar term (o := ot)) (ov2 := VOps_scalar R (o := ornd)) mean mean.
Proof. split; simpl; intros; constructor; auto. Qed.
Lemma pmeans_num d p : pmeans d (num_point p) p.
Proof. unfold num_point. induction d; simpl; auto. split; auto. constructor. Qed.
Lemma F2_map {A B} (P : B -> A -> Prop) (f : A -> B) l : (forall x, P (f x) x) -> Forall2 P (map f l) l.
Proof. intros H. induction l; simpl; constructor; auto. Qed.
Lemma srel_num d (s : spline (point R d)) : srel (pmeans d) (num_spline s) s.
Proof. split; auto. apply F2_map. apply pmeans_num. Qed.
Lemma srel_num_s (s : spline R) : srel mean (num_spline_s s) s.
Proof. split; auto. apply F2_map. constructor. Qed.
Lemma xs_num xs : Forall2 mean (map Num xs) xs.
Proof. apply F2_map. constructor. Qed.
End Fma.
