(** Powers and composition with sizes in 64 bits. *)
From Coq Require Import Arith Lia List ZArith NArith Bool.
From Verif Require Import Prelude Scalar Spec SpecSpline ModelBasis ModelPoint ModelSpline ModelSize ModelSize2 ProofIndex ProofMul ProofSize ProofSize2.
Import ListNotations.

Lemma map_mul_1 l : map (Nat.mul 1) l = l.
Proof. induction l as [|a l IH]; auto. cbn [map]. rewrite IH. f_equal. lia. Qed.
Lemma map2_mul a b l : map2 Nat.add (map (Nat.mul a) l) (map (Nat.mul b) l) = map (Nat.mul (a + b)) l.
Proof. induction l as [|c l IH]; auto. cbn [map map2]. rewrite IH. f_equal. lia. Qed.
Lemma map_mul_le a b l : a <= b -> Forall2 le (map (Nat.mul a) l) (map (Nat.mul b) l).
Proof. intros H. induction l; constructor; auto. nia. Qed.
Lemma map_mul_0 l : map (Nat.mul 0) l = repeat 0 (length l).
Proof. induction l; auto. cbn [map length repeat]. f_equal; auto. Qed.

Section Pow.
Context (limit MAXB : nat) (HB : table_ok MAXB) {T : Type} {o : SOps T}.
Context (D : list nat) (HD : D <> []) (K : nat) (HF : fits64 (n_coeffs (map (Nat.mul K) D))) (HLim : n_coeffs (map (Nat.mul K) D) <= limit).
Definition pw (k : nat) (x : spline T) : Prop := wf x /\ degrees x = map (Nat.mul k) D.
Lemma pw_fits k : k <= K -> fits64 (n_coeffs (map (Nat.mul k) D)) /\ n_coeffs (map (Nat.mul k) D) <= limit.
Proof using HF HLim.
  intros H. pose proof (n_coeffs_mono _ _ (map_mul_le k K D H)). split; [eapply fits64_le; eauto|lia].
Qed.
Lemma pw_mul a b x y r : pw a x -> pw b y -> a + b <= K -> spline_mul_ss MAXB x y = Ok r -> spline_mul_ss_64 limit MAXB x y = Ok r /\ pw (a + b) r.
Proof using HB HF HLim.
  intros (Wx & Dx) (Wy & Dy) H E. destruct (pw_fits (a + b) H) as (F1 & F2).
  destruct (spline_mul_64_full limit MAXB (fun a b : T => smul a b) x y r HB Wx Wy) with (4 := E) as (G & Wr & Dr).
  - rewrite Dx, Dy, !map_length. reflexivity.
  - rewrite Dx, Dy, map2_mul. exact F1.
  - rewrite Dx, Dy, map2_mul. exact F2.
  - split; [exact G|]. split; [exact Wr|]. rewrite Dr, Dx, Dy. apply map2_mul.
Qed.
Lemma one_64 n : n = length D -> exists x, const_one (T := T) n = Ok x /\ const_one_64 (T := T) n = Ok x /\ pw 0 x.
Proof using HD HF HLim.
  intros ->. set (x := mk (repeat 0 (length D)) [s1 (SOps := o)]).
  assert (N : n_coeffs (repeat 0 (length D)) = 1) by (clear; induction D; auto; cbn [length repeat]; rewrite n_coeffs_cons; lia).
  assert (NE : repeat 0 (length D) <> []) by (clear - HD; destruct D; [congruence|discriminate]).
  exists x. split; [apply Spline_deg_points_ok; auto|]. assert (Wx : wf x).
  { unfold wf, x, mk. cbn [degrees number_of_control_points index_offsets control_points]. rewrite N. auto. }
  split.
  - pose proof (construct_64 (V := T) (repeat 0 (length D))) as C. refine (proj1 (C _ x (conj Wx _))); [rewrite N; reflexivity|].
    cbn [x mk degrees]. clear. induction (repeat 0 (length D)); constructor; auto.
  - split; [exact Wx|]. cbn [x mk degrees]. symmetry. apply map_mul_0.
Qed.
Lemma RaisePower_rec_64_same fuel : forall k (s r : spline T), pw 1 s -> k <= K -> RaisePower_rec MAXB fuel s k = Ok r -> RaisePower_rec_64 limit MAXB fuel s k = Ok r /\ pw k r.
Proof using HB HD HF HLim.
  induction fuel as [|f IH]; intros k s r Ps Hk E; [discriminate|]. cbn [RaisePower_rec RaisePower_rec_64] in *.
  destruct (Nat.eqb_spec k 0) as [->|H0].
  { destruct (one_64 (length (degrees s))) as (x & E1 & E2 & Px); [rewrite (proj2 Ps), map_length; auto|]. rewrite E1 in E. injection E as <-. auto. }
  destruct (Nat.eqb_spec k 1) as [->|H1]; [injection E as <-; auto|].
  apply bind_ok in E. destruct E as (r1 & E1 & E). assert (Hd : k = 2 * (k / 2) + k mod 2) by (apply Nat.div_mod; lia).
  destruct (IH (k / 2) s r1 Ps ltac:(lia) E1) as (G1 & P1). rewrite G1. cbn [bind].
  apply bind_ok in E. destruct E as (r2 & E2 & E). destruct (pw_mul (k / 2) (k / 2) r1 r1 r2 P1 P1 ltac:(lia) E2) as (G2 & P2). rewrite G2. cbn [bind].
  assert (k mod 2 < 2) by (apply Nat.mod_upper_bound; lia).
  destruct (Nat.eqb_spec (k mod 2) 0) as [Hm|Hm].
  - injection E as <-. split; auto. replace k with (k / 2 + k / 2) at 1 by lia. auto.
  - destruct (pw_mul _ 1 r2 s r P2 Ps ltac:(lia) E) as (G3 & P3). split; auto. replace k with (k / 2 + k / 2 + 1) at 1 by lia. auto.
Qed.

Lemma map_points_shape (f : T -> T) (s r : spline T) : map_points f s = Ok r -> same_shape r s.
Proof using o.
  intros E. unfold map_points in E. apply bind_ok in E. destruct E as (c & E1 & E). injection E as <-. repeat split. cbn [with_cps control_points].
  refine (for_up_keep (fun c => length c = length (control_points s)) _ _ _ _ _ eq_refl _ E1). intros i a b _ Ha F.
  apply bind_ok in F. destruct F as (x & _ & F). clear HF HLim. apply set_lt in F. lia.
Qed.
Lemma neg_shape (s r : spline T) : spline_neg s = Ok r -> same_shape r s.
Proof using o.
  intros E. unfold spline_neg in E. apply bind_ok in E. destruct E as (c & E1 & E). injection E as <-. repeat split. cbn [with_cps control_points].
  refine (for_up_keep (fun c => length c = length (control_points s)) _ _ _ _ _ eq_refl _ E1). intros i a b _ Ha F.
  apply bind_ok in F. destruct F as (x & _ & F). clear HF HLim. apply set_lt in F. lia.
Qed.
Lemma pw_shape k x y : pw k x -> same_shape y x -> pw k y.
Proof. intros (W & E) S. split; [eapply same_shape_wf; eauto|]. destruct S as (-> & _). exact E. Qed.
Lemma inverse_poly_shape (c ic : spline T) : inverse_poly c = Ok ic -> same_shape ic c.
Proof using o.
  intros E. unfold inverse_poly, point_minus_spline in E. apply bind_ok in E. destruct E as (t & E1 & E).
  eapply same_shape_trans; [eapply neg_shape; eauto|]. eapply map_points_shape; eauto.
Qed.

Lemma get_upd_cases {A} (l : list A) i x j y : i < length l -> get (upd_list l i x) j = Ok y -> (j = i /\ y = x) \/ (j <> i /\ get l j = Ok y).
Proof.
  intros Hi E. pose proof (get_inv y _ _ _ E) as (L & N). rewrite length_upd in L. rewrite nth_upd in N by auto.
  destruct (Nat.eqb_spec j i) as [->|H]; [left; auto|right]. split; auto. rewrite (get_ok y) by auto. congruence.
Qed.

(** One direction: all p + 1 splines have the degrees of a p-th power. *)
Definition all_pw (p : nat) (l : list (spline T)) : Prop := length l = p + 1 /\ forall j x, get l j = Ok x -> pw p x.
Lemma bernstein_64_same n p (c ic : spline T) l : n = length D -> p <= K -> fits64 (p + 1) -> pw 1 c -> pw 1 ic ->
  bernstein_basis_splines MAXB n p c ic = Ok l -> bernstein_basis_splines_64 limit MAXB n p c ic = Ok l /\ all_pw p l.
Proof using HB HD HF HLim.
  intros Hn Hp Fp Pc Pic E. unfold bernstein_basis_splines, bernstein_basis_splines_64 in *. rewrite w64_id by auto.
  destruct (one_64 n Hn) as (one & E1 & E2 & P1). rewrite E1 in E. rewrite E2. cbn [bind] in *. cbv zeta in *.
  set (dflt := mkSpline (repeat 0 n) 0 (repeat 0 n) []) in *.
  apply bind_ok in E. destruct E as (b0 & E3 & E). rewrite E3. cbn [bind]. apply set_inv in E3. destruct E3 as (L0 & E3). rewrite repeat_length in L0.
  apply bind_ok in E. destruct E as ((b1 & m1) & E4 & E).
  set (I1 := fun (i : nat) (st : list (spline T) * spline T) => length (fst st) = p + 1 /\ (forall j x, j < i -> get (fst st) j = Ok x -> pw j x) /\ pw (i - 1) (snd st)).
  destruct (for_up_pci2 I1
    (fun i '(b, m) => do m0 <- spline_mul_ss MAXB m c; do b2 <- set b i m0; Ok (b2, m0))
    (fun i '(b, m) => do m0 <- spline_mul_ss_64 limit MAXB m c; do b2 <- set b i m0; Ok (b2, m0)) p 1 (b0, one) (b1, m1)) as (G1 & J1).
  { rewrite E3. split; cbn [fst snd]; [rewrite length_upd, repeat_length; auto|]. split; [|exact P1].
    intros j x Hj Gx. assert (j = 0) by lia. subst j. rewrite (get_ok dflt) in Gx by (rewrite length_upd, repeat_length; lia).
    rewrite nth_upd in Gx by (rewrite repeat_length; lia). cbn in Gx. injection Gx as <-. exact P1. }
  { intros i (b & m) (b' & m') Hi (A1 & A2 & A3) F. cbn [fst snd] in *. apply bind_ok in F. destruct F as (m2 & F1 & F).
    destruct (pw_mul (i - 1) 1 m c m2 A3 Pc ltac:(lia) F1) as (G & Pm). rewrite G. cbn [bind]. replace (i - 1 + 1) with i in Pm by lia.
    apply bind_ok in F. destruct F as (b2 & F2 & F). rewrite F2. cbn [bind]. injection F as <- <-. split; [reflexivity|].
    apply set_inv in F2. destruct F2 as (L2 & ->). split; cbn [fst snd]; [rewrite length_upd; auto|]. split; [|replace (S i - 1) with i by lia; exact Pm].
    intros j x Hj Gx. apply get_upd_cases in Gx; auto. destruct Gx as [(-> & ->)|(Hne & Gx)]; [exact Pm|]. apply A2; auto. lia. }
  { exact E4. }
  rewrite G1. cbn [bind]. destruct J1 as (A1 & A2 & _). cbn [fst snd] in A1, A2. clear G1 E4 E3 m1.
  apply bind_ok in E. destruct E as ((b2 & m2) & E5 & E).
  set (I2 := fun (i : nat) (st : list (spline T) * spline T) => length (fst st) = p + 1 /\ (forall j x, get (fst st) j = Ok x -> pw (if p <? j + i then p else j) x) /\ pw (i - 1) (snd st)).
  destruct (for_up_pci2 I2
    (fun i '(b, m) => do m0 <- spline_mul_ss MAXB m ic; do x <- get b (p - i); do x0 <- spline_mul_ss MAXB x m0; do b2 <- set b (p - i) x0; Ok (b2, m0))
    (fun i '(b, m) => do m0 <- spline_mul_ss_64 limit MAXB m ic; do x <- get b (p - i); do x0 <- spline_mul_ss_64 limit MAXB x m0; do b2 <- set b (p - i) x0; Ok (b2, m0)) p 1 (b1, one) (b2, m2)) as (G2 & J2).
  { split; cbn [fst snd]; [auto|]. split; [|exact P1]. intros j x Gx. assert (Hj := get_lt _ _ _ Gx).
    destruct (Nat.ltb_spec p (j + 1)); [replace p with j by lia|]; apply A2; auto; lia. }
  { intros i (b & m) (b' & m') Hi (B1 & B2 & B3) F. cbn [fst snd] in *. apply bind_ok in F. destruct F as (m3 & F1 & F).
    destruct (pw_mul (i - 1) 1 m ic m3 B3 Pic ltac:(lia) F1) as (G & Pm). rewrite G. cbn [bind]. replace (i - 1 + 1) with i in Pm by lia.
    apply bind_ok in F. destruct F as (x & F2 & F). rewrite F2. cbn [bind].
    apply bind_ok in F. destruct F as (x' & F3 & F). pose proof (B2 _ _ F2) as Px. destruct (Nat.ltb_spec p (p - i + i)); [lia|].
    destruct (pw_mul (p - i) i x m3 x' Px Pm ltac:(lia) F3) as (G' & Px'). rewrite G'. cbn [bind]. replace (p - i + i) with p in Px' by lia.
    apply bind_ok in F. destruct F as (b3 & F4 & F). rewrite F4. cbn [bind]. injection F as <- <-. split; [reflexivity|].
    apply set_inv in F4. destruct F4 as (L2 & ->). split; cbn [fst snd]; [rewrite length_upd; auto|]. split; [|replace (S i - 1) with i by lia; exact Pm].
    intros j y Gy. apply get_upd_cases in Gy; auto. destruct Gy as [(-> & ->)|(Hne & Gy)].
    - destruct (Nat.ltb_spec p (p - i + S i)); [exact Px'|lia].
    - pose proof (B2 _ _ Gy) as Py. destruct (Nat.ltb_spec p (j + i)), (Nat.ltb_spec p (j + S i)); auto; lia. }
  { exact E5. }
  rewrite G2. cbn [bind]. destruct J2 as (B1 & B2 & _). cbn [fst snd] in B1, B2. clear G2 E5 m2.
  assert (Q : all_pw p b2).
  { split; auto. intros j x Gx. pose proof (B2 _ _ Gx) as Px. pose proof (get_lt _ _ _ Gx). destruct (Nat.ltb_spec p (j + (1 + p))); [exact Px|lia]. }
  split.
  { edestruct (for_up_refine (fun _ : list (spline T) => True)) as (G & _); [exact Logic.I| |exact E|exact G]. cbv beta. intros i a b Hi _ F. split; [|exact Logic.I].
    apply bind_ok in F. destruct F as (x & F1 & F). rewrite F1. cbn [bind]. apply bind_ok in F. destruct F as (c0 & F2 & F).
    rewrite (proj2 (choose_64_same _ _ _ _ HB F2)). cbn [bind]. exact F. }
  refine (for_up_keep (all_pw p) _ _ _ _ _ Q _ E). intros i a b _ (Q1 & Q2) F.
  apply bind_ok in F. destruct F as (x & F1 & F). apply bind_ok in F. destruct F as (k & _ & F). apply bind_ok in F. destruct F as (x' & F2 & F).
  apply set_inv in F. destruct F as (L2 & ->). split; [rewrite length_upd; auto|]. intros j y Gy. apply get_upd_cases in Gy; auto.
  destruct Gy as [(-> & ->)|(_ & Gy)]; [|apply Q2 in Gy; auto]. apply Q2 in F1. eapply pw_shape; [exact F1|]. eapply map_points_shape; eauto.
Qed.
End Pow.

(** The sum of the degrees in 64 bits. *)
Lemma fold_add_w64 l : forall a, fold_left (fun a b => w64 (a + b)) l (w64 a) = w64 (fold_left Nat.add l a).
Proof. induction l as [|b l IH]; intros a; cbn [fold_left]; [reflexivity|]. rewrite w64_add_l. apply IH. Qed.
Lemma fold_add_sum l : forall a, fold_left Nat.add l a = a + list_sum l.
Proof. induction l as [|b l IH]; intros a; cbn [fold_left list_sum fold_right]; [lia|]. rewrite IH. unfold list_sum. lia. Qed.
Lemma sum_lt_n_coeffs l : list_sum l < n_coeffs l.
Proof. induction l as [|a l IH]; [apply n_coeffs_pos|]. rewrite n_coeffs_cons. change (list_sum (a :: l)) with (a + list_sum l). nia. Qed.

Section Comp.
Context (limit MAXB : nat) (HB : table_ok MAXB) {T V : Type} {o : SOps T} {ov : VOps T V}.

Lemma sum_degrees_64_same (s : spline V) : fits64 (n_coeffs (degrees s)) -> sum_degrees_64 s = sum_degrees s.
Proof.
  intros HF. unfold sum_degrees_64, sum_degrees. change 0 with (w64 0) at 1. rewrite fold_add_w64. apply w64_id.
  rewrite fold_add_sum. eapply fits64_le; [|exact HF]. pose proof (sum_lt_n_coeffs (degrees s)). lia.
Qed.

Lemma Extract_64_same {d} (s : spline (point T d)) k c : wf s -> fits64 (n_coeffs (degrees s)) -> n_coeffs (degrees s) <= limit ->
  ExtractDimension s k = Ok c -> ExtractDimension_64 limit s k = Ok c /\ wf c /\ degrees c = degrees s.
Proof.
  intros Hw HF HL E. unfold ExtractDimension, ExtractDimension_64 in *. destruct (d <=? k); [discriminate|]. pose proof Hw as (Hd & _).
  rewrite Spline_deg_64_same by auto. rewrite Spline_deg_ok in * by auto. cbn [bind] in *. split; [exact E|].
  apply bind_ok in E. destruct E as (cps & E1 & E). injection E as <-. unfold with_cps, mk, wf in *. cbn [degrees number_of_control_points index_offsets control_points] in *.
  split; [|reflexivity]. split; [auto|]. split; [auto|]. split; [auto|].
  refine (for_up_keep (fun c => length c = n_coeffs (degrees s)) _ _ _ _ _ _ _ E1); [apply repeat_length|].
  intros i a b _ Ha F. apply bind_ok in F. destruct F as (x & _ & F). apply bind_ok in F. destruct F as (y & _ & F). apply set_lt in F. lia.
Qed.

Section Num.
Context (outer : spline V) (D : list nat) (Wo : wf outer) (Fo : fits64 (n_coeffs (degrees outer))) (HD : D <> []).
Let K := sum_degrees outer.
Context (HF : fits64 (n_coeffs (map (Nat.mul K) D))) (HLim : n_coeffs (map (Nat.mul K) D) <= limit).
Context (extract extract' : nat -> res (spline T)) (inverse inverse' : spline T -> res (spline T)).
Context (Hex : forall k c, extract k = Ok c -> extract' k = Ok c /\ pw D 1 c).
Context (Hin : forall c ic, pw D 1 c -> inverse c = Ok ic -> inverse' c = Ok ic /\ pw D 1 ic).

Lemma degree_le k : k < length (degrees outer) -> nth k (degrees outer) 0 <= K.
Proof.
  intros Hk. unfold K, sum_degrees. rewrite fold_add_sum. cbn [Nat.add]. clear - Hk. revert k Hk. induction (degrees outer) as [|a l IH]; intros [|k] Hk; cbn in *; try lia.
  specialize (IH k ltac:(lia)). unfold list_sum in *. lia.
Qed.
Lemma basis_64_same n bs : n = length D -> all_basis_splines MAXB outer n extract inverse = Ok bs ->
  all_basis_splines_64 limit MAXB outer n extract' inverse' = Ok bs /\
  length bs = length (degrees outer) /\ forall k l, get bs k = Ok l -> all_pw D (nth k (degrees outer) 0) l.
Proof using HB Fo HD HF HLim Hex Hin Wo.
  intros Hn E. unfold all_basis_splines, all_basis_splines_64 in *.
  set (I := fun (i : nat) (bs : list (list (spline T))) => length bs = length (degrees outer) /\ forall k l, k < i -> get bs k = Ok l -> all_pw D (nth k (degrees outer) 0) l).
  edestruct (for_up_pci2 I) as (G & (L & A)); [| |exact E|split; [exact G|]]; [split; [apply repeat_length|intros; lia]| |split; [exact L|]; intros k l Gk; apply A; auto; apply get_lt in Gk; lia].
  clear bs E. intros i a b Hi (L & A) F.
  apply bind_ok in F. destruct F as (p & F1 & F). rewrite F1. cbn [bind]. pose proof (wf_degree outer i p Wo Fo F1) as Fp. apply (get_inv 0) in F1. destruct F1 as (Li & Ep).
  apply bind_ok in F. destruct F as (c & F2 & F). destruct (Hex i c F2) as (G2 & Pc). rewrite G2. cbn [bind].
  apply bind_ok in F. destruct F as (ic & F3 & F). destruct (Hin c ic Pc F3) as (G3 & Pic). rewrite G3. cbn [bind].
  apply bind_ok in F. destruct F as (l & F4 & F).
  destruct (bernstein_64_same limit MAXB HB D HD K HF HLim n p c ic l Hn) as (G4 & Al); auto; [rewrite <- Ep; apply degree_le; auto|].
  rewrite G4. cbn [bind]. split; [exact F|]. apply set_inv in F. destruct F as (L2 & ->). split; [rewrite length_upd; auto|].
  intros k m Hk Gm. apply get_upd_cases in Gm; auto. destruct Gm as [(-> & ->)|(Hne & Gm)]; [rewrite Ep; exact Al|]. apply A; auto. lia.
Qed.
Lemma tensor_64_same bs idx t : length bs = length (degrees outer) -> (forall k l, get bs k = Ok l -> all_pw D (nth k (degrees outer) 0) l) ->
  tensor_spline MAXB bs idx (length (degrees outer)) = Ok t -> tensor_spline_64 limit MAXB bs idx (length (degrees outer)) = Ok t.
Proof using HB Fo HD HF HLim Wo.
  intros L A E. unfold tensor_spline, tensor_spline_64 in *.
  apply bind_ok in E. destruct E as (b0 & E1 & E). rewrite E1. cbn [bind]. apply bind_ok in E. destruct E as (i0 & E2 & E). rewrite E2. cbn [bind].
  apply bind_ok in E. destruct E as (t0 & E3 & E). rewrite E3. cbn [bind].
  assert (Ln : 0 < length (degrees outer)) by (destruct Wo as (W & _); destruct (degrees outer); [congruence|cbn; lia]).
  set (I := fun (i : nat) (t : spline T) => pw D (list_sum (firstn i (degrees outer))) t).
  edestruct (for_up_pci2 I) as (G & _); [| |exact E|exact G].
  - unfold I. destruct (A _ _ E1) as (_ & A0). specialize (A0 _ _ E3). destruct (degrees outer) as [|a l]; [cbn in Ln; lia|]. cbn [firstn nth list_sum fold_right] in *.
    rewrite Nat.add_0_r. exact A0.
  - intros i x y Hi Ix F. apply bind_ok in F. destruct F as (b & F1 & F). rewrite F1. cbn [bind]. apply bind_ok in F. destruct F as (j & F2 & F). rewrite F2. cbn [bind].
    apply bind_ok in F. destruct F as (z & F3 & F). rewrite F3. cbn [bind]. destruct (A _ _ F1) as (_ & A0). specialize (A0 _ _ F3).
    assert (Sf : list_sum (firstn (S i) (degrees outer)) = list_sum (firstn i (degrees outer)) + nth i (degrees outer) 0).
    { rewrite (firstn_S_nth 0) by lia. rewrite list_sum_app. cbn. lia. }
    unfold I in *. rewrite Sf. refine (pw_mul limit MAXB HB D K HF HLim _ _ x z y Ix A0 _ F). rewrite <- Sf. unfold K, sum_degrees. rewrite fold_add_sum. cbn [Nat.add].
    rewrite <- (firstn_skipn (S i) (degrees outer)) at 2. rewrite list_sum_app. lia.
Qed.
Lemma Numerator_64_same r : ComposeNumerator MAXB outer D extract inverse = Ok r -> ComposeNumerator_64 limit MAXB outer D extract' inverse' = Ok r.
Proof using HB Fo HD HF HLim Hex Hin Wo.
  intros E. unfold ComposeNumerator, ComposeNumerator_64 in *. rewrite sum_degrees_64_same by auto. fold K in E |- *. cbv zeta in *.
  assert (Em : map (fun p => p * K) D = map (Nat.mul K) D) by (apply map_ext; intros; lia).
  assert (Ew : map (fun p => w64 (p * K)) D = map (fun p => p * K) D).
  { apply map_ext_in. intros p Hp. apply w64_id. eapply fits64_le; [|exact HF]. apply (In_nth _ _ 0) in Hp. destruct Hp as (k & Hk & <-).
    pose proof (n_coeffs_nth_le (map (Nat.mul K) D) k ltac:(rewrite map_length; auto)) as Q. rewrite (nth_indep _ 0 (K * 0)) in Q by (rewrite map_length; auto). rewrite map_nth in Q. lia. }
  rewrite Ew. rewrite Em in *. set (nd := map (Nat.mul K) D) in *.
  assert (Nn : nd <> []) by (unfold nd; destruct D; [congruence|discriminate]).
  rewrite Spline_deg_64_same by auto.
  apply bind_ok in E. destruct E as (r0 & E1 & E). rewrite E1. cbn [bind].
  apply bind_ok in E. destruct E as (bs & E2 & E). destruct (basis_64_same _ _ eq_refl E2) as (G & L & A). rewrite G. cbn [bind].
  edestruct (for_up_refine (fun _ : spline V => True)) as (G2 & _); [exact Logic.I| |exact E|exact G2].
  intros i a b _ _ F. split; [|exact Logic.I]. rewrite LocalToGlobal_64_same by auto.
  apply bind_ok in F. destruct F as (idx & F1 & F). rewrite F1. cbn [bind]. apply bind_ok in F. destruct F as (t & F2 & F). rewrite (tensor_64_same bs idx t L A F2). cbn [bind]. exact F.
Qed.
Lemma Sensitivity_64_same l : ComposeNumeratorSensitivity MAXB outer D extract inverse = Ok l -> ComposeNumeratorSensitivity_64 limit MAXB outer D extract' inverse' = Ok l.
Proof using HB Fo HD HF HLim Hex Hin Wo.
  intros E. unfold ComposeNumeratorSensitivity, ComposeNumeratorSensitivity_64 in *.
  apply bind_ok in E. destruct E as (bs & E2 & E). destruct (basis_64_same _ _ eq_refl E2) as (G & L & A). rewrite G. cbn [bind].
  edestruct (for_up_refine (fun _ : list (spline T) => True)) as (G2 & _); [exact Logic.I| |exact E|exact G2].
  intros i a b _ _ F. split; [|exact Logic.I]. rewrite LocalToGlobal_64_same by auto.
  apply bind_ok in F. destruct F as (idx & F1 & F). rewrite F1. cbn [bind]. apply bind_ok in F. destruct F as (t & F2 & F). rewrite (tensor_64_same bs idx t L A F2). cbn [bind]. exact F.
Qed.
End Num.
End Comp.
