(** Sizes in 64 bits: reductions commute with sums and products, and runs that stay in range are unchanged. *)
From Coq Require Import Arith Lia List ZArith NArith Bool.
From Verif Require Import Prelude Scalar Spec SpecSpline ModelBasis ModelSpline ProofIndex ProofBasis ProofMul ModelSize.
Import ListNotations.

Definition fits64 (n : nat) : Prop := (Z.of_nat n < 2 ^ 64)%Z.

Lemma w64_id n : fits64 n -> w64 n = n.
Proof. unfold fits64, w64. intros. rewrite Z.mod_small by lia. apply Nat2Z.id. Qed.
Lemma w64_Z n : Z.of_nat (w64 n) = (Z.of_nat n mod 2 ^ 64)%Z.
Proof. unfold w64. apply Z2Nat.id. apply Z.mod_pos_bound. reflexivity. Qed.
Lemma w64_fits n : fits64 (w64 n).
Proof. unfold fits64. rewrite w64_Z. apply Z.mod_pos_bound. reflexivity. Qed.
Lemma w64_mul a b : w64 (w64 a * w64 b) = w64 (a * b).
Proof.
  apply Nat2Z.inj. rewrite !w64_Z, !Nat2Z.inj_mul, !w64_Z. symmetry. apply Z.mul_mod. discriminate.
Qed.
Lemma w64_mul_r a b : w64 (a * w64 b) = w64 (a * b).
Proof. apply Nat2Z.inj. rewrite !w64_Z, !Nat2Z.inj_mul, !w64_Z. apply Z.mul_mod_idemp_r. discriminate. Qed.
Lemma w64_add a b : w64 (w64 a + w64 b) = w64 (a + b).
Proof. apply Nat2Z.inj. rewrite !w64_Z, !Nat2Z.inj_add, !w64_Z. symmetry. apply Z.add_mod. discriminate. Qed.
Lemma w64_w64 a : w64 (w64 a) = w64 a.
Proof. apply w64_id, w64_fits. Qed.
Lemma w64_1 : w64 1 = 1.
Proof. reflexivity. Qed.

Lemma fits64_le a b : a <= b -> fits64 b -> fits64 a.
Proof. unfold fits64. lia. Qed.

Lemma UpdateIndexOffsets_64_ok degs :
  degs <> [] -> UpdateIndexOffsets_64 degs = Ok (map w64 (offsets degs)).
Proof.
  intros Hd. unfold UpdateIndexOffsets_64.
  assert (L : 0 < length degs) by (destruct degs; simpl; [congruence|lia]).
  rewrite set_ok by (rewrite repeat_length; auto). rewrite bind_Ok.
  destruct (for_up_inv
    (fun i offs => length offs = length degs /\
       forall j, j < i -> j < length degs -> nth j offs 0 = w64 (n_coeffs (firstn j degs)))
    (fun i offs => do a <- get offs (i - 1); do p <- get degs (i - 1); set offs i (w64 (a * w64 (p + 1))))
    (length degs - 1) 1 (upd_list (repeat 0 (length degs)) 0 1)) as (offs & E & HL & HN).
  - rewrite length_upd, repeat_length. split; auto. intros j Hj Hj'.
    replace j with 0 by lia. rewrite nth_upd_same by (now rewrite repeat_length). reflexivity.
  - intros i offs Hi (HL & HN).
    rewrite (get_ok 0) by lia. rewrite (get_ok 0 degs) by lia. cbn [bind].
    rewrite set_ok by lia. eexists; split; [reflexivity|].
    rewrite length_upd. split; auto. intros j Hj Hj'.
    rewrite nth_upd by lia. destruct (Nat.eqb_spec j i) as [->|]; [|apply HN; lia].
    rewrite HN by lia. rewrite w64_mul.
    assert (Ei : firstn i degs = firstn (i - 1) degs ++ [nth (i - 1) degs 0]).
    { replace i with (S (i - 1)) at 1 by lia. apply firstn_S_nth. lia. }
    rewrite Ei, n_coeffs_app, n_coeffs_cons. f_equal. unfold n_coeffs at 3. simpl prod. lia.
  - rewrite E. f_equal. apply (list_ext 0).
    + now rewrite map_length, length_offsets.
    + intros i Hi. rewrite HN by lia.
      rewrite (nth_indep _ 0 (w64 0)) by (rewrite map_length, length_offsets; lia).
      rewrite map_nth, nth_offsets by lia. reflexivity.
Qed.

Lemma count_points_64_ok degs : count_points_64 degs = Ok (w64 (n_coeffs degs)).
Proof.
  unfold count_points_64.
  destruct (for_up_inv (fun i n => n = w64 (n_coeffs (firstn i degs)))
    (fun i n => do p <- get degs i; Ok (w64 (n * w64 (p + 1)))) (length degs) 0 1)
    as (n & E & H).
  - reflexivity.
  - intros i n Hi ->. rewrite (get_ok 0) by lia. cbn [bind]. eexists; split; [reflexivity|].
    rewrite w64_mul. f_equal.
    rewrite (firstn_S_nth 0) by lia. rewrite n_coeffs_app, n_coeffs_cons. unfold n_coeffs at 3. simpl prod. lia.
  - rewrite E, H. now rewrite firstn_all2 by lia.
Qed.

Lemma n_coeffs_firstn_le degs i : n_coeffs (firstn i degs) <= n_coeffs degs.
Proof.
  rewrite <- (firstn_skipn i degs) at 2. rewrite n_coeffs_app.
  assert (0 < n_coeffs (skipn i degs)) by apply n_coeffs_pos. nia.
Qed.
Lemma n_coeffs_nth_le degs i : i < length degs -> nth i degs 0 + 1 <= n_coeffs degs.
Proof.
  intros H. apply Nat.le_trans with (n_coeffs (firstn (S i) degs)); [|apply n_coeffs_firstn_le].
  rewrite (firstn_S_nth 0) by lia. rewrite n_coeffs_app, n_coeffs_cons. unfold n_coeffs at 2. simpl prod.
  assert (0 < n_coeffs (firstn i degs)) by apply n_coeffs_pos. nia.
Qed.

Lemma offsets_64_id degs : fits64 (n_coeffs degs) -> map w64 (offsets degs) = offsets degs.
Proof.
  intros H. apply (list_ext 0); [apply map_length|]. intros i Hi. rewrite map_length, length_offsets in Hi.
  rewrite (nth_indep _ 0 (w64 0)) by (rewrite map_length, length_offsets; lia).
  rewrite map_nth. apply w64_id. rewrite nth_offsets by lia.
  eapply fits64_le; [apply n_coeffs_firstn_le|auto].
Qed.

Definition same_shape {V} (r s : spline V) : Prop :=
  degrees r = degrees s /\ number_of_control_points r = number_of_control_points s /\ index_offsets r = index_offsets s /\
  length (control_points r) = length (control_points s).
Lemma same_shape_refl {V} (s : spline V) : same_shape s s.
Proof. repeat split. Qed.
Lemma same_shape_trans {V} (r s t : spline V) : same_shape r s -> same_shape s t -> same_shape r t.
Proof. intros (A & B & C & D) (A' & B' & C' & D'). repeat split; congruence. Qed.
Lemma same_shape_wf {V} (r s : spline V) : same_shape r s -> wf s -> wf r.
Proof. intros (A & B & C & D) (A' & B' & C' & D'). unfold wf. rewrite A, B, C, D. auto. Qed.

(** Loops whose bodies agree on successful runs. *)
Lemma for_up_refine {A} (I : A -> Prop) (f g : nat -> A -> res A) n : forall lo a r, I a ->
  (forall i x y, lo <= i < lo + n -> I x -> f i x = Ok y -> g i x = Ok y /\ I y) ->
  for_up lo n f a = Ok r -> for_up lo n g a = Ok r /\ I r.
Proof.
  induction n as [|n IH]; intros lo a r Ha H E; cbn [for_up] in *.
  - inversion E; subst; auto.
  - apply bind_ok in E. destruct E as (x & E1 & E2).
    destruct (H lo a x ltac:(lia) Ha E1) as (G & Hx). rewrite G. cbn [bind].
    apply (IH (S lo) x r Hx); auto. intros i u v Hi. apply H. lia.
Qed.

Section G.
Context {V : Type}.
Lemma LocalToGlobal_64_same (s : spline V) i : wf s -> fits64 (n_coeffs (degrees s)) ->
  LocalToGlobalIndex_64 s i = LocalToGlobalIndex s i.
Proof.
  intros (Hn & _ & HO & _) HF. unfold LocalToGlobalIndex_64, LocalToGlobalIndex. apply for_up_ext.
  intros k l Hk. rewrite HO. rewrite (get_ok 0) by (rewrite length_offsets; lia). cbn [bind].
  destruct (nth k (offsets (degrees s)) 0 =? 0); cbn [bind]; [reflexivity|].
  rewrite (get_ok 0) by lia. cbn [bind].
  rewrite w64_id by (eapply fits64_le; [apply n_coeffs_nth_le; lia|auto]).
  replace (nth k (degrees s) 0 + 1 =? 0) with false by (symmetry; apply Nat.eqb_neq; lia). reflexivity.
Qed.

Lemma GlobalToLocal_64_same (s : spline V) idx i : fits64 i -> GlobalToLocalIndex s idx = Ok i -> GlobalToLocalIndex_64 s idx = Ok i.
Proof.
  intros HF E. unfold GlobalToLocalIndex_64, GlobalToLocalIndex in *. apply bind_ok in E. destruct E as (c & E1 & E). rewrite E1. cbn [bind].
  assert (M : forall n lo c i, fits64 i ->
    for_up lo n (fun i c => do off <- get (index_offsets s) i; do l <- get idx i; Ok (c + off * l)) c = Ok i ->
    c <= i /\ for_up lo n (fun i c => do off <- get (index_offsets s) i; do l <- get idx i; Ok (w64 (c + w64 (off * l)))) c = Ok i).
  { clear. induction n as [|n IH]; intros lo c i HF E; cbn [for_up] in *; [inversion E; subst; auto|].
    apply bind_ok in E. destruct E as (x & E1 & E2). apply bind_ok in E1. destruct E1 as (off & E1 & E3).
    apply bind_ok in E3. destruct E3 as (l & E3 & E4). inversion E4; subst x. rewrite E1, E3. cbn [bind].
    destruct (IH _ _ _ HF E2) as (L & E5). split; [lia|].
    rewrite (w64_id (off * l)) by (eapply fits64_le; [|exact HF]; lia).
    rewrite w64_id by (eapply fits64_le; [|exact HF]; lia). exact E5. }
  apply M; auto.
Qed.

Lemma ControlPoint_64_same (s : spline V) idx v : fits64 (length (control_points s)) -> ControlPoint s idx = Ok v -> ControlPoint_64 s idx = Ok v.
Proof.
  intros HF E. unfold ControlPoint, ControlPoint_64 in *. apply bind_ok in E. destruct E as (i & E1 & E2).
  rewrite (GlobalToLocal_64_same s idx i); auto.
  unfold get in E2. destruct (nth_error (control_points s) i) eqn:E3; [|discriminate].
  eapply fits64_le; [|exact HF]. assert (i < length (control_points s)) by (apply nth_error_Some; congruence). lia.
Qed.
Lemma SetControlPoint_64_same (s r : spline V) idx v : fits64 (length (control_points s)) -> SetControlPoint s idx v = Ok r ->
  SetControlPoint_64 s idx v = Ok r /\ same_shape r s.
Proof.
  intros HF E. unfold SetControlPoint, SetControlPoint_64 in *. apply bind_ok in E. destruct E as (i & E1 & E2).
  apply bind_ok in E2. destruct E2 as (c & E2 & E3). unfold set in E2. destruct (Nat.ltb_spec i (length (control_points s))); [|discriminate].
  rewrite (GlobalToLocal_64_same s idx i); auto; [|eapply fits64_le; [|exact HF]; lia]. cbn [bind].
  unfold set. destruct (Nat.ltb_spec i (length (control_points s))); [|lia]. inversion E2; subst c. cbn [bind]. split; [exact E3|].
  inversion E3; subst r. unfold with_cps. repeat split. cbn [control_points]. apply length_upd.
Qed.
End G.

(** The table of binomial coefficients is right (C04). *)
Definition table_ok (MAXB : nat) : Prop := MAXB <= 68.

(** Conversions to [int] and [unsigned int]. *)
Lemma u32_id z : (0 <= z < 2 ^ 32)%Z -> u32 z = z.
Proof. intros. apply Z.mod_small. auto. Qed.
Lemma i32_id z : (- 2 ^ 31 <= z < 2 ^ 31)%Z -> i32 z = z.
Proof. intros. unfold i32. rewrite Z.mod_small by lia. lia. Qed.
Lemma int_id z : (- 2 ^ 31 <= z < 2 ^ 31)%Z -> int_ z = Ok z.
Proof. intros. unfold int_. rewrite (proj2 (Z.leb_le _ _)), (proj2 (Z.ltb_lt _ _)) by lia. reflexivity. Qed.
Lemma w64_sub_id a b : b <= a -> fits64 a -> w64_sub a b = a - b.
Proof. unfold fits64, w64_sub. intros. rewrite Z.mod_small by lia. lia. Qed.
Lemma choose_64_same MAXB n i b : MAXB <= 68 -> choose MAXB n i = Ok b -> n < MAXB /\ choose_64 MAXB (Z.of_nat n) (Z.of_nat i) = Ok b.
Proof.
  intros HB E. unfold choose in E. destruct (Nat.ltb_spec n MAXB) as [Hn|]; [|discriminate]. cbn [assert_ bind] in E.
  split; [auto|]. destruct (calculate_table_ok MAXB) as (t & Et & HL & _); [lia|]. rewrite Et in E. cbn [bind] in E.
  pose proof E as E'. apply (get_inv 0%N) in E'. destruct E' as (Hi & _).
  assert (HT : tri MAXB <= 68 * 69) by (eapply Nat.le_trans; [apply (tri_mono _ 68); auto|apply Nat.leb_le; reflexivity]).
  assert (HN : n * (n + 1) <= 68 * 69) by (apply Nat.mul_le_mono; lia).
  assert (Hi' : i < 68 * 69) by lia. clear Hi.
  unfold choose_64. rewrite (u32_id (Z.of_nat n)) by lia. rewrite (proj2 (Z.ltb_lt _ _)) by lia. cbn [assert_ bind]. rewrite Et. cbn [bind].
  rewrite (u32_id (Z.of_nat n + 1)) by lia. rewrite (u32_id (Z.of_nat n * _)) by lia. rewrite (u32_id (Z.of_nat i)) by lia.
  replace (Z.of_nat n * (Z.of_nat n + 1) / 2)%Z with (Z.of_nat (n * (n + 1) / 2)).
  2:{ rewrite Nat2Z.inj_div, Nat2Z.inj_mul, Nat2Z.inj_add. reflexivity. }
  assert (HD : n * (n + 1) / 2 <= 68 * 69) by (apply Nat.div_le_upper_bound; lia).
  rewrite u32_id by lia. replace (Z.to_nat _) with (n * (n + 1) / 2 + i) by lia. exact E.
Qed.
Lemma for_up_first {A} lo n (f : nat -> A -> res A) a r : 0 < n -> for_up lo n f a = Ok r -> exists y, f lo a = Ok y.
Proof. destruct n; [lia|]. intros _ E. cbn [for_up] in E. apply bind_ok in E. destruct E as (y & E & _). eauto. Qed.

Section P.
Context (limit MAXB : nat) {T V1 V2 V3 : Type} {o : SOps T} {o3 : VOps T V3} (pmul : V1 -> V2 -> V3).

Lemma Combine_64_same (P : spline V1) (Q : spline V2) idx : MAXB <= 68 -> fits64 (length (control_points P)) -> fits64 (length (control_points Q)) ->
  (forall j, nth j idx 0 <= nth j (degrees P) 0 + nth j (degrees Q) 0) -> (forall j, fits64 (nth j idx 0)) ->
  forall rem fac ind (this r : spline V3), fits64 (length (control_points this)) ->
  (forall j, j < length ind -> nth j ind 0 <= nth j idx 0) ->
  CombineControlPoints MAXB pmul rem P Q idx fac ind this = Ok r ->
  CombineControlPoints_64 MAXB pmul rem P Q idx fac ind this = Ok r /\ same_shape r this.
Proof.
  intros HB FP FQ HV HF. induction rem as [|rem IH]; intros fac ind this r FT HI E; [discriminate|].
  cbn [CombineControlPoints CombineControlPoints_64] in *.
  apply bind_ok in E. destruct E as (k & Ek & E). apply bind_ok in E. destruct E as (m & Em & E). apply bind_ok in E. destruct E as (n & En & E).
  rewrite Ek, Em, En. cbn [bind].
  assert (Hk : k <= m + n).
  { apply (get_inv 0) in Ek, Em, En. destruct Ek as (_ & Ek), Em as (_ & Em), En as (_ & En). specialize (HV (length ind)). lia. }
  assert (HM : m + n < MAXB).
  { assert (L : 0 < S (min k m) - (k - n)) by lia. destruct (for_up_first _ _ _ _ _ L E) as (y & F). cbv beta in F.
    apply bind_ok in F. destruct F as (cm & E1 & F). apply bind_ok in F. destruct F as (cn & E2 & F). apply bind_ok in F. destruct F as (cmn & E3 & F).
    apply (choose_64_same MAXB (m + n) k cmn HB E3). }
  rewrite !i32_id by lia. rewrite int_id by lia. cbn [bind].
  replace (Z.to_nat (Z.max 0 (Z.of_nat k - Z.of_nat n))) with (k - n) by lia.
  replace (Z.to_nat (Z.min (Z.of_nat k) (Z.of_nat m) + 1 - Z.of_nat (k - n))) with (S (min k m) - (k - n)) by lia.
  eapply (for_up_refine (fun x => same_shape x this)); [apply same_shape_refl| |exact E].
  cbv beta. intros i x y Hi Hx F.
  apply bind_ok in F. destruct F as (cm & E1 & F). apply bind_ok in F. destruct F as (cn & E2 & F). apply bind_ok in F. destruct F as (cmn & E3 & F).
  apply bind_ok in F. destruct F as (lf & E4 & F).
  rewrite (proj2 (choose_64_same _ _ _ _ HB E1)); cbn [bind].
  replace (Z.of_nat k - Z.of_nat i)%Z with (Z.of_nat (k - i)) by lia. rewrite (proj2 (choose_64_same _ _ _ _ HB E2)); cbn [bind].
  rewrite int_id by lia. cbn [bind]. rewrite <- Nat2Z.inj_add. rewrite (proj2 (choose_64_same _ _ _ _ HB E3)); cbn [bind]. rewrite E4; cbn [bind].
  assert (FX : fits64 (length (control_points x))) by (destruct Hx as (_ & _ & _ & ->); auto).
  assert (HI' : forall j, j < length (ind ++ [i]) -> nth j (ind ++ [i]) 0 <= nth j idx 0).
  { intros j Hj. rewrite app_length in Hj. cbn [length] in Hj. destruct (Nat.lt_ge_cases j (length ind)); [rewrite app_nth1 by auto; auto|].
    replace j with (length ind) by lia. rewrite nth_middle. apply (get_inv 0) in Ek. destruct Ek as (_ & Ek). lia. }
  destruct rem as [|rem].
  - apply bind_ok in F. destruct F as (c & E5 & F). apply bind_ok in F. destruct F as (a & E6 & F). apply bind_ok in F. destruct F as (b & E7 & F).
    replace (map (fun '(a, b) => w64_sub a b) (combine idx (ind ++ [i]))) with (map (fun '(a, b) => a - b) (combine idx (ind ++ [i]))).
    2:{ apply map_ext_in. intros (u & v) Hin. apply (In_nth _ _ (0, 0)) in Hin. destruct Hin as (j & Hj & Ej). rewrite combine_length in Hj.
        assert (EC : nth j (combine idx (ind ++ [i])) (0, 0) = (nth j idx 0, nth j (ind ++ [i]) 0)).
        { clear - Hj. revert j Hj. generalize (ind ++ [i]) as l. induction idx as [|u idx IH]; intros [|v l] [|j] Hj; cbn in *; try lia; auto. apply IH. lia. }
        rewrite EC in Ej. injection Ej as <- <-. symmetry. apply w64_sub_id; auto. apply HI'. lia. }
    rewrite (ControlPoint_64_same _ _ _ FX E5). cbn [bind]. rewrite (ControlPoint_64_same _ _ _ FP E6). cbn [bind].
    rewrite (ControlPoint_64_same _ _ _ FQ E7). cbn [bind].
    apply SetControlPoint_64_same in F; auto. destruct F as (F1 & F2). split; [auto|eapply same_shape_trans; eauto].
  - apply IH in F; auto. destruct F as (F1 & F2). split; [auto|eapply same_shape_trans; eauto].
Qed.

Lemma n_coeffs_add_le l : forall m, length m = length l -> n_coeffs l <= n_coeffs (map2 Nat.add l m) /\ n_coeffs m <= n_coeffs (map2 Nat.add l m).
Proof.
  induction l as [|a l IH]; intros [|b m] H; try discriminate; [auto|]. cbn [map2]. rewrite !n_coeffs_cons.
  destruct (IH m) as (A & B); [simpl in H; lia|]. split; apply Nat.mul_le_mono; lia.
Qed.

Lemma degrees_64 (l m pd : list nat) : length m = length l -> fits64 (n_coeffs (map2 Nat.add l m)) ->
  for_up 0 (length l) (fun i pd => do a <- get l i; do b <- get m i; set pd i (a + b)) (repeat 0 (length l)) = Ok pd ->
  for_up 0 (length l) (fun i pd => do a <- get l i; do b <- get m i; set pd i (w64 (a + b))) (repeat 0 (length l)) = Ok pd /\ True.
Proof.
  intros HL HF E. eapply (for_up_refine (fun _ => True)); [auto| |exact E]. cbv beta. intros i x y Hi _ F. split; [|auto].
  apply bind_ok in F. destruct F as (a & E1 & F). apply bind_ok in F. destruct F as (b & E2 & F). rewrite E1; cbn [bind]. rewrite E2; cbn [bind].
  rewrite w64_id; auto. rewrite (get_ok 0) in E1 by lia. rewrite (get_ok 0) in E2 by lia. inversion E1; inversion E2; subst a b.
  rewrite <- (nth_map2_add 0) by lia.
  eapply fits64_le; [|exact HF]. pose proof (n_coeffs_nth_le (map2 Nat.add l m) i). rewrite length_map2_add in H by auto. lia.
Qed.

Lemma spline_mul_64_full (P : spline V1) (Q : spline V2) r : MAXB <= 68 -> wf P -> wf Q -> length (degrees Q) = length (degrees P) ->
  fits64 (n_coeffs (map2 Nat.add (degrees P) (degrees Q))) -> n_coeffs (map2 Nat.add (degrees P) (degrees Q)) <= limit ->
  spline_mul MAXB pmul P Q = Ok r -> spline_mul_64 limit MAXB pmul P Q = Ok r /\ wf r /\ degrees r = map2 Nat.add (degrees P) (degrees Q).
Proof.
  intros HB HP HQ HL HF Hlim E. unfold spline_mul in E. unfold spline_mul_64.
  apply bind_ok in E. destruct E as (pd & E1 & E).
  assert (Epd : pd = map2 Nat.add (degrees P) (degrees Q)).
  { assert (K : exists l, for_up 0 (length (degrees P)) (fun i pd => do a <- get (degrees P) i; do b <- get (degrees Q) i; set pd i (a + b)) (repeat 0 (length (degrees P))) = Ok l /\
      length l = length (degrees P) /\ forall j, j < 0 + length (degrees P) -> nth j l 0 = nth j (map2 Nat.add (degrees P) (degrees Q)) 0).
    { apply (for_up_inv (fun n l => length l = length (degrees P) /\ forall j, j < n -> nth j l 0 = nth j (map2 Nat.add (degrees P) (degrees Q)) 0)).
      - rewrite repeat_length. split; [auto|intros; lia].
      - intros i l Hi (A & B). rewrite !(get_ok 0) by lia. cbn [bind]. rewrite set_ok by lia. eexists. split; [reflexivity|]. rewrite length_upd. split; [auto|].
        intros j Hj. rewrite nth_upd by lia. destruct (Nat.eqb_spec j i) as [->|]; [rewrite (nth_map2_add 0) by lia; auto|apply B; lia]. }
    destruct K as (l & K1 & K2 & K3). rewrite K1 in E1. inversion E1; subst l.
    apply (list_ext 0); [rewrite length_map2_add; auto; lia|]. intros j Hj. apply K3. lia. }
  destruct (degrees_64 _ _ _ HL HF E1) as (-> & _). cbn [bind].
  apply bind_ok in E. destruct E as (r0 & E2 & E). subst pd. set (pd := map2 Nat.add (degrees P) (degrees Q)) in *.
  assert (Npd : pd <> []) by (apply map2_add_neq; auto; apply HP).
  rewrite Spline_deg_ok in E2 by auto. inversion E2 as [E3]. subst r0. clear E2.
  unfold Spline_deg_64. rewrite count_points_64_ok. cbn [bind]. rewrite w64_id by auto.
  destruct (Nat.ltb_spec limit (n_coeffs pd)); [lia|]. rewrite UpdateIndexOffsets_64_ok by auto. cbn [bind]. rewrite offsets_64_id by auto.
  change (mkSpline pd (n_coeffs pd) (offsets pd) (repeat v0 (n_coeffs pd))) with (mk pd (repeat (v0 : V3) (n_coeffs pd))).
  destruct (n_coeffs_add_le (degrees P) (degrees Q) HL) as (LP & LQ).
  eapply (for_up_refine (fun x => wf x /\ degrees x = pd)); [|  |exact E].
  - split; [|reflexivity]. repeat split; auto. cbn [mk control_points degrees]. apply repeat_length.
  - cbv beta. intros i x y Hi (Wx & Dx) F. apply bind_ok in F. destruct F as (idx & F1 & F2).
    rewrite LocalToGlobal_64_same by (auto; rewrite Dx; auto). rewrite F1. cbn [bind].
    assert (HV : valid_index pd idx).
    { rewrite LocalToGlobal_ok in F1 by auto. injection F1 as <-. rewrite Dx. apply index_of_valid. }
    assert (HN : forall j, nth j idx 0 <= nth j pd 0) by (intros j; clear - HV; revert j; induction HV; intros [|j]; simpl; auto).
    destruct (Combine_64_same P Q idx) with (rem := length (degrees P)) (fac := s1 (SOps := o)) (ind := @nil nat) (this := x) (r := y) as (G1 & G2); auto.
    + destruct HP as (_ & _ & _ & ->). eapply fits64_le; eauto.
    + destruct HQ as (_ & _ & _ & ->). eapply fits64_le; eauto.
    + intros j. eapply Nat.le_trans; [apply HN|]. unfold pd. destruct (Nat.lt_ge_cases j (length (degrees P))) as [Hj|Hj].
      * rewrite (nth_map2_add 0) by lia. lia.
      * rewrite nth_overflow by (rewrite length_map2_add; lia). lia.
    + intros j. eapply fits64_le; [|exact HF]. eapply Nat.le_trans; [apply HN|]. destruct (Nat.lt_ge_cases j (length pd)) as [Hj|Hj].
      * pose proof (n_coeffs_nth_le pd j Hj). fold pd. lia.
      * rewrite nth_overflow by lia. lia.
    + destruct Wx as (_ & _ & _ & ->). rewrite Dx. auto.
    + cbn [length]. intros. lia.
    + split; [auto|]. split; [eapply same_shape_wf; eauto|]. destruct G2 as (-> & _). auto.
Qed.
Lemma spline_mul_64_same (P : spline V1) (Q : spline V2) r : MAXB <= 68 -> wf P -> wf Q -> length (degrees Q) = length (degrees P) ->
  fits64 (n_coeffs (map2 Nat.add (degrees P) (degrees Q))) -> n_coeffs (map2 Nat.add (degrees P) (degrees Q)) <= limit ->
  spline_mul MAXB pmul P Q = Ok r -> spline_mul_64 limit MAXB pmul P Q = Ok r.
Proof. intros. eapply spline_mul_64_full; eauto. Qed.
End P.
