(** Claims about refinement (elevation and splitting) and the other operations. *)
From Coq Require Import Arith Lia List ZArith NArith Bool Ring Field.
From Verif Require Import Prelude Scalar Spec SpecSpline Sums Order Coord ModelBasis ModelSpline ModelPoint
  ModelRational ProofIndex ProofBasis ProofEval ProofElevate ProofUnique ClaimsA ProofArith ClaimsB ProofCube ClaimsC
  ProofMul ProofSplit ClaimsD ProofCompose ClaimsE ProofLaws ClaimsV SpecReal SpecLaws ProofLawsReal ProofHull ClaimsX.
Import ListNotations.
Local Open Scope nat_scope.

(** Degrees after one elevation in direction [k]. *)
Definition up (k : nat) (D : list nat) : list nat := upd_list D k (S (nth k D 0)).

Lemma length_up k D : length (up k D) = length D.
Proof. apply length_upd. Qed.
Lemma nth_up k D j : k < length D -> nth j (up k D) 0 = nth j D 0 + if j =? k then 1 else 0.
Proof. intros H. unfold up. rewrite nth_upd by auto. destruct (Nat.eqb_spec j k) as [->|]; lia. Qed.
Lemma up_comm k j D : k < length D -> j < length D -> up j (up k D) = up k (up j D).
Proof.
  intros Hk Hj. apply (nth_ext _ _ 0 0); [now rewrite !length_up|]. intros i Hi. rewrite !length_up in Hi.
  rewrite !nth_up by (rewrite ?length_up; auto). lia.
Qed.
Lemma le2_nth l : forall m, length l = length m -> (forall j, j < length l -> nth j l 0 <= nth j m 0) -> Forall2 le l m.
Proof.
  induction l as [|a l IH]; intros [|b m] HL H; try discriminate; constructor.
  - apply (H 0). simpl. lia.
  - apply IH; [auto|]. intros j Hj. apply (H (S j)). simpl. lia.
Qed.
Lemma up_le k D : k < length D -> Forall2 le D (up k D).
Proof.
  intros Hk. apply le2_nth; [now rewrite length_up|]. intros j Hj. rewrite nth_up by auto. lia.
Qed.
Lemma up_max k D E : length E = length D -> k < length D -> up k (map2 Nat.max D E) = map2 Nat.max (up k D) (up k E).
Proof.
  intros HL Hk. assert (LM := len_max (eq_sym HL)).
  apply (nth_ext _ _ 0 0); [rewrite length_up, !len_max; rewrite ?length_up; congruence|].
  intros i Hi. rewrite length_up, len_max in Hi by congruence.
  assert (N : forall A B, length A = length D -> length B = length D -> nth i (map2 Nat.max A B) 0 = Nat.max (nth i A 0) (nth i B 0)).
  { clear - Hi. revert i D Hi. intros i D Hi A. revert i D Hi. induction A as [|x A IH]; intros i D Hi B LA LB.
    - destruct D; [simpl in Hi; lia|discriminate].
    - destruct B as [|y B]; [destruct D; discriminate|]. destruct i; [reflexivity|]. destruct D as [|z D]; [discriminate|].
      cbn [map2 nth]. apply (IH i D); simpl in *; lia. }
  rewrite nth_up by (rewrite len_max; congruence). rewrite !N by (rewrite ?length_up; congruence).
  rewrite !nth_up by congruence. lia.
Qed.
Lemma up_add k D E : length E = length D -> k < length D -> up k (map2 Nat.add D E) = map2 Nat.add (up k D) E.
Proof.
  intros HL Hk. apply (nth_ext _ _ 0 0); [rewrite length_up, !length_map2_add; rewrite ?length_up; congruence|].
  intros i Hi. rewrite length_up, length_map2_add in Hi by congruence.
  rewrite nth_up by (rewrite length_map2_add; congruence).
  rewrite !(ProofMul.nth_map2_add 68 (le_n _)) by (rewrite ?length_up; congruence). rewrite nth_up by congruence. lia.
Qed.

Section Ref.
Context {T : Type} {o : SOps T} {F : SField T} {O : SOrder T}.
Add Field Tfield : (@sf_th T o F).

Lemma upd_upd {A} (l : list A) k j (x y : A) : k <> j -> upd_list (upd_list l k x) j y = upd_list (upd_list l j y) k x.
Proof.
  intros H. revert k j H. induction l as [|a l IH]; intros [|k] [|j] H; cbn [upd_list]; try reflexivity; try congruence.
  f_equal. apply IH. congruence.
Qed.
Lemma upd_same {A} (l : list A) k (x y : A) : upd_list (upd_list l k x) k y = upd_list l k y.
Proof. revert k. induction l as [|a l IH]; intros [|k]; simpl; auto. f_equal. apply IH. Qed.
Lemma nth_upd_ne {A} (l : list A) k j x (d : A) : k <> j -> nth j (upd_list l k x) d = nth j l d.
Proof.
  intros H. revert k j H. induction l as [|a l IH]; intros [|k] [|j] H; cbn [upd_list nth]; try reflexivity; try (elim H; reflexivity).
  apply IH. congruence.
Qed.
End Ref.

(** ** C78 *)
Lemma c78_elevate_elevate : forall (T V : Type) (o : SOps T) (ov : VOps T V) (F : SField T) (M : VMod T V)
  (s : spline V) (k j : nat), wf s -> k < length (degrees s) -> j < length (degrees s) ->
  (Z.of_nat (n_coeffs (upd_at j S (upd_at k S (degrees s)))) < 2 ^ 31)%Z ->
  exists a b r, OrderElevate (T := T) s k = Ok a /\ OrderElevate (T := T) s j = Ok b /\
    OrderElevate (T := T) a j = Ok r /\ OrderElevate (T := T) b k = Ok r.
Proof.
  intros T V o ov F M s k j Hs Hk Hj HZ. rewrite (upd_at_upd 0 k) in HZ by auto. fold (up k (degrees s)) in HZ.
  rewrite (upd_at_upd 0) in HZ by (rewrite length_up; auto). fold (up j (up k (degrees s))) in HZ.
  destruct (elevate_isv s _ _ k (isv_self s Hs) Hk) as (a & E1 & I1).
  { eapply size_le; [|exact HZ]. apply up_le. now rewrite length_up. }
  destruct (elevate_isv s _ _ j (isv_self s Hs) Hj) as (b & E2 & I2).
  { eapply size_le; [|exact HZ]. rewrite up_comm by auto. apply up_le. now rewrite length_up. }
  fold (up k (degrees s)) in I1. fold (up j (degrees s)) in I2.
  destruct (elevate_isv a _ _ j I1) as (r & E3 & I3); [now rewrite length_up|exact HZ|].
  destruct (elevate_isv b _ _ k I2) as (r' & E4 & I4); [now rewrite length_up|change (Z.of_nat (n_coeffs (up k (up j (degrees s)))) < 2 ^ 31)%Z; rewrite up_comm; auto|].
  exists a, b, r. do 3 (split; auto). rewrite E4. f_equal. eapply isv_unique; [exact I4| |reflexivity].
  eapply isv_ext; [exact I3| |reflexivity]. now apply up_comm.
Qed.

Lemma c78_elevate_split : forall (T V : Type) (o : SOps T) (ov : VOps T V) (F : SField T) (M : VMod T V) (O : SOrder T)
  (s : spline V) (k j : nat) (x : T), wf s -> k < length (degrees s) -> j < length (degrees s) ->
  (Z.of_nat (n_coeffs (upd_at k S (degrees s))) < 2 ^ 31)%Z -> slt s0 x -> slt x s1 ->
  exists e a b ea eb, OrderElevate (T := T) s k = Ok e /\ SplitAtPosition s x j = Ok [a; b] /\
    OrderElevate (T := T) a k = Ok ea /\ OrderElevate (T := T) b k = Ok eb /\ SplitAtPosition e x j = Ok [ea; eb].
Proof.
  intros T V o ov F M O s k j x Hs Hk Hj HZ H0 H1. rewrite (upd_at_upd 0) in HZ by auto.
  destruct (elevate_isv s _ _ k (isv_self s Hs) Hk HZ) as (e & E1 & I1).
  destruct (split_isv s _ _ x j (isv_self s Hs) Hj H0 H1) as (a & b & E2 & Ia & Ib).
  destruct (elevate_isv a _ _ k Ia Hk HZ) as (ea & E3 & I3). destruct (elevate_isv b _ _ k Ib Hk HZ) as (eb & E4 & I4).
  destruct (split_isv e _ _ x j I1) as (a' & b' & E5 & Ia' & Ib'); auto; [now rewrite length_upd|].
  exists e, a, b, ea, eb. do 4 (split; auto). rewrite E5. do 2 f_equal; [|f_equal].
  - eapply isv_unique; [exact Ia'|exact I3|reflexivity].
  - eapply isv_unique; [exact Ib'|exact I4|reflexivity].
Qed.

Lemma c78_split_split : forall (T V : Type) (o : SOps T) (ov : VOps T V) (F : SField T) (M : VMod T V) (O : SOrder T)
  (s : spline V) (k j : nat) (x y : T), wf s -> k < length (degrees s) -> j < length (degrees s) -> k <> j ->
  slt s0 x -> slt x s1 -> slt s0 y -> slt y s1 ->
  exists a b c d ac ad bc bd, SplitAtPosition s x k = Ok [a; b] /\ SplitAtPosition s y j = Ok [c; d] /\
    SplitAtPosition a y j = Ok [ac; ad] /\ SplitAtPosition b y j = Ok [bc; bd] /\
    SplitAtPosition c x k = Ok [ac; bc] /\ SplitAtPosition d x k = Ok [ad; bd].
Proof.
  intros T V o ov F M O s k j x y Hs Hk Hj HN X0 X1 Y0 Y1. pose proof (isv_self s Hs) as Is.
  destruct (split_isv s _ _ x k Is Hk X0 X1) as (a & b & E1 & Ia & Ib).
  destruct (split_isv s _ _ y j Is Hj Y0 Y1) as (c & d & E2 & Ic & Id).
  destruct (split_isv a _ _ y j Ia Hj Y0 Y1) as (ac & ad & E3 & Iac & Iad).
  destruct (split_isv b _ _ y j Ib Hj Y0 Y1) as (bc & bd & E4 & Ibc & Ibd).
  destruct (split_isv c _ _ x k Ic Hk X0 X1) as (ca & cb & E5 & Ica & Icb).
  destruct (split_isv d _ _ x k Id Hk X0 X1) as (da & db & E6 & Ida & Idb).
  exists a, b, c, d, ac, ad, bc, bd. do 4 (split; auto).
  assert (HN' : j <> k) by congruence.
  split; [rewrite E5|rewrite E6]; (do 2 f_equal; [|f_equal]).
  - eapply isv_unique; [exact Ica|exact Iac|]. intros xs HX. cbv beta.
    rewrite !nth_upd_ne by auto. now rewrite upd_upd by auto.
  - eapply isv_unique; [exact Icb|exact Ibc|]. intros xs HX. cbv beta.
    rewrite !nth_upd_ne by auto. now rewrite upd_upd by auto.
  - eapply isv_unique; [exact Ida|exact Iad|]. intros xs HX. cbv beta.
    rewrite !nth_upd_ne by auto. now rewrite upd_upd by auto.
  - eapply isv_unique; [exact Idb|exact Ibd|]. intros xs HX. cbv beta.
    rewrite !nth_upd_ne by auto. now rewrite upd_upd by auto.
Qed.

Section Pos.
Context {T : Type} {o : SOps T} {F : SField T} {O : SOrder T}.
Add Field Tfield2 : (@sf_th T o F).
Lemma div_lt_1 (x y : T) : slt x y -> slt s0 y -> slt (sdiv x y) s1.
Proof.
  intros H Hy. apply (proj2 (slt_sub _ _)). assert (N : y <> s0) by (intros E; apply (slt_neq _ _ Hy); auto).
  replace (ssub s1 (sdiv x y)) with (sdiv (ssub y x) y) by (field; auto). apply slt_div; auto. now apply (proj1 (slt_sub _ _)).
Qed.
Lemma lin1 (x y t : T) : y <> s0 -> smul y (smul (sdiv x y) t) = smul x t.
Proof. intros. field. auto. Qed.
Lemma lin2 (x y t : T) : y <> s0 -> ssub s1 x <> s0 ->
  smul y (sadd (sdiv x y) (smul (ssub s1 (sdiv x y)) t)) = sadd x (smul (ssub s1 x) (smul (sdiv (ssub y x) (ssub s1 x)) t)).
Proof. intros. field. auto. Qed.
Lemma lin3 (x y t : T) : ssub s1 x <> s0 ->
  sadd y (smul (ssub s1 y) t) =
  sadd x (smul (ssub s1 x) (sadd (sdiv (ssub y x) (ssub s1 x)) (smul (ssub s1 (sdiv (ssub y x) (ssub s1 x))) t))).
Proof. intros. field. auto. Qed.
Lemma lin0 (x t : T) : sadd s0 (smul (ssub x s0) t) = smul x t.
Proof. ring. Qed.
Lemma lin4 (x y t : T) : y <> s0 -> smul y (sadd (sdiv x y) (smul (ssub s1 (sdiv x y)) t)) = sadd x (smul (ssub y x) t).
Proof. intros. field. auto. Qed.
Lemma sub_lt (x y : T) : slt y s1 -> slt (ssub y x) (ssub s1 x).
Proof.
  intros H. apply (proj2 (slt_sub _ _)). replace (ssub (ssub s1 x) (ssub y x)) with (ssub s1 y) by ring. now apply (proj1 (slt_sub _ _)).
Qed.
End Pos.

(** Splitting at two positions from the left or from the right. *)
Lemma c78_split_order : forall (T V : Type) (o : SOps T) (ov : VOps T V) (F : SField T) (M : VMod T V) (O : SOrder T)
  (s : spline V) (k : nat) (x y : T), wf s -> k < length (degrees s) -> slt s0 x -> slt x y -> slt y s1 ->
  exists a b c b1 d, SplitAtPosition s x k = Ok [a; b] /\ SplitAtPosition s y k = Ok [c; d] /\
    SplitAtPosition c (sdiv x y) k = Ok [a; b1] /\ SplitAtPosition b (sdiv (ssub y x) (ssub s1 x)) k = Ok [b1; d] /\
    SplitAtPositions s [x; y] k = Ok [a; b1; d].
Proof.
  intros T V o ov F M O s k x y Hs Hk H0 Hxy H1. pose proof (isv_self s Hs) as Is.
  assert (Hx1 : slt x s1) by (eapply so_trans; eauto). assert (H0y : slt s0 y) by (eapply so_trans; eauto).
  assert (Hd : slt s0 (ssub s1 x)) by now apply (proj1 (slt_sub _ _)).
  assert (Nd : ssub s1 x <> s0) by (intros E; apply (slt_neq _ _ Hd); auto).
  assert (Ny : y <> s0) by (intros E; apply (slt_neq _ _ H0y); auto).
  destruct (split_isv s _ _ x k Is Hk H0 Hx1) as (a & b & E1 & Ia & Ib).
  destruct (split_isv s _ _ y k Is Hk H0y H1) as (c & d & E2 & Ic & Id).
  destruct (split_isv c _ _ (sdiv x y) k Ic Hk) as (a' & b1 & E3 & Ia' & Ib1); [now apply slt_div|now apply div_lt_1|].
  destruct (split_isv b _ _ (sdiv (ssub y x) (ssub s1 x)) k Ib Hk) as (b1' & d' & E4 & Ib1' & Id').
  { apply slt_div; auto. now apply (proj1 (slt_sub _ _)). }
  { apply div_lt_1; auto. now apply sub_lt. }
  exists a, b, c, b1, d.
  assert (Ea : a' = a).
  { eapply isv_unique; [exact Ia'|exact Ia|]. intros xs HX. cbv beta. rewrite upd_same, nth_upd_same by congruence. now rewrite lin1. }
  assert (Eb : b1' = b1).
  { eapply isv_unique; [exact Ib1'|exact Ib1|]. intros xs HX. cbv beta. rewrite !upd_same, !nth_upd_same by congruence. now rewrite lin2. }
  assert (Ed : d' = d).
  { eapply isv_unique; [exact Id'|exact Id|]. intros xs HX. cbv beta. rewrite !upd_same, !nth_upd_same by congruence. now rewrite <- lin3. }
  subst a' b1' d'. do 4 (split; auto).
  destruct (Positions_ok s [x; y] k Hs Hk) as (parts & EP & LP & HP).
  { intros i Hi. cbn [length app] in Hi. destruct i as [|[|[|i]]]; [exact H0|exact Hxy|exact H1|lia]. }
  rewrite EP. f_equal. destruct parts as [|p0 [|p1 [|p2 [|]]]]; try discriminate LP.
  pose proof (piece_isv _ _ _ _ _ (HP 0 ltac:(simpl; lia))) as P0. pose proof (piece_isv _ _ _ _ _ (HP 1 ltac:(simpl; lia))) as P1.
  pose proof (piece_isv _ _ _ _ _ (HP 2 ltac:(simpl; lia))) as P2. cbn [nth app] in P0, P1, P2. f_equal; [|f_equal; [|f_equal]].
  - eapply isv_unique; [exact P0|exact Ia|]. intros xs HX. cbv beta. now rewrite lin0.
  - eapply isv_unique; [exact P1|exact Ib1|]. intros xs HX. cbv beta. rewrite upd_same, nth_upd_same by congruence. now rewrite lin4.
  - eapply isv_unique; [exact P2|exact Id|]. reflexivity.
Qed.

(** Refinement of sums, products, powers and coordinates. *)
Lemma c78_sum : forall (T V : Type) (o : SOps T) (ov : VOps T V) (F : SField T) (M : VMod T V) (O : SOrder T)
  (a b : spline V) (k : nat) (x : T), wf a -> wf b -> length (degrees b) = length (degrees a) -> k < length (degrees a) ->
  (Z.of_nat (n_coeffs (upd_at k S (map2 Nat.max (degrees a) (degrees b)))) < 2 ^ 31)%Z -> slt s0 x -> slt x s1 ->
  exists c ea eb ec a1 a2 b1 b2 c1 c2, returns (fun fuel => spline_add (T := T) fuel a b) c /\
    OrderElevate (T := T) a k = Ok ea /\ OrderElevate (T := T) b k = Ok eb /\ OrderElevate (T := T) c k = Ok ec /\
    returns (fun fuel => spline_add (T := T) fuel ea eb) ec /\
    SplitAtPosition a x k = Ok [a1; a2] /\ SplitAtPosition b x k = Ok [b1; b2] /\ SplitAtPosition c x k = Ok [c1; c2] /\
    returns (fun fuel => spline_add (T := T) fuel a1 b1) c1 /\ returns (fun fuel => spline_add (T := T) fuel a2 b2) c2.
Proof.
  intros T V o ov F M O a b k x Ha Hb HL Hk HZ H0 H1.
  assert (LM : length (map2 Nat.max (degrees a) (degrees b)) = length (degrees a)) by (apply len_max; auto).
  rewrite (upd_at_upd 0) in HZ by lia. fold (up k (map2 Nat.max (degrees a) (degrees b))) in HZ.
  assert (HZ1 : (Z.of_nat (n_coeffs (map2 Nat.max (degrees a) (degrees b))) < 2 ^ 31)%Z) by (eapply size_le; [apply up_le|exact HZ]; lia).
  assert (HZ2 := HZ). rewrite up_max in HZ2 by auto.
  pose proof (isv_self a Ha) as Ia. pose proof (isv_self b Hb) as Ib.
  destruct (add_isv a b _ _ _ _ Ia Ib (eq_sym HL) HZ1) as (c & E0 & Ic).
  destruct (elevate_isv a _ _ k Ia Hk) as (ea & E1 & Iea).
  { eapply size_le; [|exact HZ2]. apply max_le_l. now rewrite !length_up. }
  destruct (elevate_isv b _ _ k Ib) as (eb & E2 & Ieb); [lia| |].
  { eapply size_le; [|exact HZ2]. rewrite map2_max_comm. apply max_le_l. now rewrite !length_up. }
  destruct (elevate_isv c _ _ k Ic) as (ec & E3 & Iec); [lia|exact HZ|].
  destruct (add_isv ea eb _ _ _ _ Iea Ieb) as (ec' & E4 & Iec'); [now rewrite !length_upd|exact HZ2|].
  destruct (split_isv a _ _ x k Ia Hk H0 H1) as (a1 & a2 & E5 & Ia1 & Ia2).
  destruct (split_isv b _ _ x k Ib) as (b1 & b2 & E6 & Ib1 & Ib2); auto; [lia|].
  destruct (split_isv c _ _ x k Ic) as (c1 & c2 & E7 & Ic1 & Ic2); auto; [lia|].
  destruct (add_isv a1 b1 _ _ _ _ Ia1 Ib1 (eq_sym HL) HZ1) as (c1' & E8 & I8).
  destruct (add_isv a2 b2 _ _ _ _ Ia2 Ib2 (eq_sym HL) HZ1) as (c2' & E9 & I9).
  exists c, ea, eb, ec, a1, a2, b1, b2, c1, c2. do 4 (split; auto).
  split. { replace ec with ec'; auto. eapply isv_unique; [exact Iec'| |reflexivity].
    eapply isv_ext; [exact Iec| |reflexivity]. now apply up_max. }
  do 3 (split; auto). split.
  - replace c1 with c1'; auto. eapply isv_unique; [exact I8|exact Ic1|reflexivity].
  - replace c2 with c2'; auto. eapply isv_unique; [exact I9|exact Ic2|reflexivity].
Qed.

Lemma c78_product : forall (T V : Type) (o : SOps T) (ov : VOps T V) (F : SField T) (M : VMod T V) (O : SOrder T)
  (MAXB : nat) (P : spline T) (Q : spline V) (k : nat) (x : T), MAXB <= 68 -> wf P -> wf Q ->
  length (degrees Q) = length (degrees P) -> k < length (degrees P) ->
  Forall (fun p => p < MAXB) (upd_at k S (map2 Nat.add (degrees P) (degrees Q))) ->
  (Z.of_nat (n_coeffs (upd_at k S (map2 Nat.add (degrees P) (degrees Q)))) < 2 ^ 31)%Z -> slt s0 x -> slt x s1 ->
  exists r eP eQ er P1 P2 Q1 Q2 r1 r2, spline_mul_sv MAXB P Q = Ok r /\
    OrderElevate (T := T) P k = Ok eP /\ OrderElevate (T := T) Q k = Ok eQ /\ OrderElevate (T := T) r k = Ok er /\
    spline_mul_sv MAXB eP Q = Ok er /\ spline_mul_sv MAXB P eQ = Ok er /\
    SplitAtPosition P x k = Ok [P1; P2] /\ SplitAtPosition Q x k = Ok [Q1; Q2] /\ SplitAtPosition r x k = Ok [r1; r2] /\
    spline_mul_sv MAXB P1 Q1 = Ok r1 /\ spline_mul_sv MAXB P2 Q2 = Ok r2.
Proof.
  intros T V o ov F M O MAXB P Q k x HB HP HQ HL Hk HF HZ H0 H1.
  assert (LM : length (map2 Nat.add (degrees P) (degrees Q)) = length (degrees P)) by (apply length_map2_add; auto).
  rewrite (upd_at_upd 0) in HZ, HF by lia. fold (up k (map2 Nat.add (degrees P) (degrees Q))) in HZ, HF.
  assert (HF1 : Forall (fun p => p < MAXB) (map2 Nat.add (degrees P) (degrees Q))) by (eapply Forall_le_lt; [apply up_le|exact HF]; lia).
  pose proof (isv_self P HP) as IP. pose proof (isv_self Q HQ) as IQ.
  assert (D1 : up k (map2 Nat.add (degrees P) (degrees Q)) = map2 Nat.add (up k (degrees P)) (degrees Q)) by (apply up_add; auto).
  assert (D2 : up k (map2 Nat.add (degrees P) (degrees Q)) = map2 Nat.add (degrees P) (up k (degrees Q))).
  { rewrite map2_add_comm, up_add by (auto; lia). apply map2_add_comm. }
  destruct (mul_isv (fun c p => vscale c p) MAXB P Q _ _ _ _ HB IP IQ HL HF1) as (r & E0 & Ir).
  destruct (elevate_isv P _ _ k IP Hk) as (eP & E1 & IeP).
  { eapply size_le; [|exact HZ]. rewrite D1. apply add_le_l. now rewrite length_up. }
  destruct (elevate_isv Q _ _ k IQ) as (eQ & E2 & IeQ); [lia| |].
  { eapply size_le; [|exact HZ]. rewrite D2, map2_add_comm. apply add_le_l. now rewrite length_up. }
  destruct (elevate_isv r _ _ k Ir) as (er & E3 & Ier); [lia|exact HZ|].
  destruct (mul_isv (fun c p => vscale c p) MAXB eP Q _ _ _ _ HB IeP IQ) as (er' & E4 & Ier').
  { now rewrite length_upd. } { fold (up k (degrees P)). now rewrite <- D1. }
  destruct (mul_isv (fun c p => vscale c p) MAXB P eQ _ _ _ _ HB IP IeQ) as (er'' & E5 & Ier'').
  { now rewrite length_upd. } { fold (up k (degrees Q)). now rewrite <- D2. }
  destruct (split_isv P _ _ x k IP Hk H0 H1) as (P1 & P2 & E6 & IP1 & IP2).
  destruct (split_isv Q _ _ x k IQ) as (Q1 & Q2 & E7 & IQ1 & IQ2); auto; [lia|].
  destruct (split_isv r _ _ x k Ir) as (r1 & r2 & E8 & Ir1 & Ir2); auto; [lia|].
  destruct (mul_isv (fun c p => vscale c p) MAXB P1 Q1 _ _ _ _ HB IP1 IQ1 HL HF1) as (r1' & E9 & I9).
  destruct (mul_isv (fun c p => vscale c p) MAXB P2 Q2 _ _ _ _ HB IP2 IQ2 HL HF1) as (r2' & E10 & I10).
  exists r, eP, eQ, er, P1, P2, Q1, Q2, r1, r2. do 4 (split; auto). unfold spline_mul_sv. rewrite E4, E5, E9, E10.
  split. { f_equal. eapply isv_unique; [exact Ier'| |reflexivity]. eapply isv_ext; [exact Ier|exact D1|reflexivity]. }
  split. { f_equal. eapply isv_unique; [exact Ier''| |reflexivity]. eapply isv_ext; [exact Ier|exact D2|reflexivity]. }
  do 3 (split; auto). split; f_equal.
  - eapply isv_unique; [exact I9|exact Ir1|reflexivity].
  - eapply isv_unique; [exact I10|exact Ir2|reflexivity].
Qed.

Lemma c78_extract : forall (T : Type) (o : SOps T) (F : SField T) (O : SOrder T) (d i : nat)
  (a b : spline (point T d)) (k : nat) (x c : T), wf a -> wf b -> i < d -> length (degrees b) = length (degrees a) ->
  k < length (degrees a) -> (Z.of_nat (n_coeffs (map2 Nat.max (degrees a) (degrees b))) < 2 ^ 31)%Z ->
  (Z.of_nat (n_coeffs (upd_at k S (degrees a))) < 2 ^ 31)%Z -> slt s0 x -> slt x s1 ->
  exists ai bi s si e ei a1 a2 i1 i2 ca cai, ExtractDimension a i = Ok ai /\ ExtractDimension b i = Ok bi /\
    returns (fun fuel => spline_add (T := T) fuel a b) s /\ ExtractDimension s i = Ok si /\
    returns (fun fuel => spline_add (T := T) fuel ai bi) si /\
    OrderElevate (T := T) a k = Ok e /\ ExtractDimension e i = Ok ei /\ OrderElevate (T := T) ai k = Ok ei /\
    SplitAtPosition a x k = Ok [a1; a2] /\ ExtractDimension a1 i = Ok i1 /\ ExtractDimension a2 i = Ok i2 /\
    SplitAtPosition ai x k = Ok [i1; i2] /\
    spline_scale a c = Ok ca /\ ExtractDimension ca i = Ok cai /\ spline_scale ai c = Ok cai.
Proof.
  intros T o F O d i a b k x c Ha Hb Hi HL Hk HZ HZ' H0 H1. rewrite (upd_at_upd 0) in HZ' by auto.
  pose proof (isv_self a Ha) as Ia. pose proof (isv_self b Hb) as Ib.
  destruct (extract_isv a _ _ i Ia Hi) as (ai & E1 & I1). destruct (extract_isv b _ _ i Ib Hi) as (bi & E2 & I2).
  destruct (add_isv a b _ _ _ _ Ia Ib (eq_sym HL) HZ) as (s & E3 & I3). destruct (extract_isv s _ _ i I3 Hi) as (si & E4 & I4).
  destruct (add_isv ai bi _ _ _ _ I1 I2 (eq_sym HL) HZ) as (si' & E5 & I5).
  destruct (elevate_isv a _ _ k Ia Hk HZ') as (e & E6 & I6). destruct (extract_isv e _ _ i I6 Hi) as (ei & E7 & I7).
  destruct (elevate_isv ai _ _ k I1 Hk HZ') as (ei' & E8 & I8).
  destruct (split_isv a _ _ x k Ia Hk H0 H1) as (a1 & a2 & E9 & Ia1 & Ia2).
  destruct (extract_isv a1 _ _ i Ia1 Hi) as (i1 & E10 & I10). destruct (extract_isv a2 _ _ i Ia2 Hi) as (i2 & E11 & I11).
  destruct (split_isv ai _ _ x k I1 Hk H0 H1) as (j1 & j2 & E12 & J1 & J2).
  destruct (scale_isv c a _ _ Ia) as (ca & E13 & I13). destruct (extract_isv ca _ _ i I13 Hi) as (cai & E14 & I14).
  destruct (scale_isv c ai _ _ I1) as (cai' & E15 & I15).
  exists ai, bi, s, si, e, ei, a1, a2, i1, i2, ca, cai. do 4 (split; auto).
  split. { replace si with si'; auto. eapply isv_unique; [exact I5|exact I4|]. intros. symmetry. apply coord_add. }
  do 2 (split; auto). split. { rewrite E8. f_equal. eapply isv_unique; [exact I8|exact I7|reflexivity]. }
  do 3 (split; auto). split.
  { rewrite E12. do 2 f_equal; [|f_equal]; (eapply isv_unique; [eassumption|eassumption|reflexivity]). }
  do 2 (split; auto). rewrite E15. f_equal. eapply isv_unique; [exact I15|exact I14|]. intros. symmetry. apply coord_scale.
Qed.

Lemma c78_power : forall (T : Type) (o : SOps T) (F : SField T) (O : SOrder T) (MAXB n : nat) (P : spline T) (k : nat) (x : T),
  MAXB <= 68 -> wf P -> k < length (degrees P) -> Forall (fun p => n * p < MAXB) (degrees P) -> slt s0 x -> slt x s1 ->
  exists r P1 P2 r1 r2, RaisePower MAXB P n = Ok r /\ SplitAtPosition P x k = Ok [P1; P2] /\
    SplitAtPosition r x k = Ok [r1; r2] /\ RaisePower MAXB P1 n = Ok r1 /\ RaisePower MAXB P2 n = Ok r2.
Proof.
  intros T o F O MAXB n P k x HB HP Hk HF H0 H1. pose proof (isv_self P HP) as IP.
  destruct (power_isv MAXB P _ _ n HB IP HF) as (r & E1 & I1).
  destruct (split_isv P _ _ x k IP Hk H0 H1) as (P1 & P2 & E2 & IP1 & IP2).
  destruct (split_isv r _ _ x k I1) as (r1 & r2 & E3 & Ir1 & Ir2); auto; [now rewrite map_length|].
  destruct (power_isv MAXB P1 _ _ n HB IP1 HF) as (s1 & E4 & I4). destruct (power_isv MAXB P2 _ _ n HB IP2 HF) as (s2 & E5 & I5).
  exists r, P1, P2, r1, r2. do 3 (split; auto). rewrite E4, E5. split; f_equal.
  - eapply isv_unique; [exact I4|exact Ir1|reflexivity].
  - eapply isv_unique; [exact I5|exact Ir2|reflexivity].
Qed.
