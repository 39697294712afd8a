(** Claims about IntPower and IndexListSort (C53, C54). *)
From Coq Require Import Arith Lia List ZArith Bool Permutation Sorted.
From Verif Require Import Prelude ModelAlgorithms SpecAlgorithms.
Import ListNotations.

(** ** C53 *)
Section Power.
Local Open Scope Z_scope.
Lemma pow_half t : standard_type t -> 2 ^ ibits t = 2 * 2 ^ (ibits t - 1) /\ 128 <= 2 ^ (ibits t - 1).
Proof.
  unfold standard_type. intros H. simpl in H. decompose [or] H; try tauto; subst;
  match goal with E : _ = ibits t |- _ => rewrite <- E end; split; vm_compute; congruence.
Qed.
Lemma conv_id t z : standard_type t -> representable t z -> conv t z = z.
Proof.
  intros HT. pose proof (pow_half t HT) as (H1 & H2). unfold representable, imin, imax, conv. intros H.
  destruct (isigned t); rewrite Z.mod_small; lia.
Qed.
Lemma imul_ok t a b : standard_type t -> representable t (a * b) -> imul t a b = Ok (a * b).
Proof.
  intros HT H. unfold imul. destruct (isigned t) eqn:ES.
  - destruct H as (H1 & H2). apply Z.leb_le in H1, H2. now rewrite H1, H2.
  - now rewrite conv_id.
Qed.
Lemma standard_int : standard_type type_int.
Proof. unfold standard_type. simpl. auto. Qed.
Lemma standard_common t : standard_type t -> standard_type (common_int t).
Proof. intros H. unfold common_int. destruct (_ <? _); auto. apply standard_int. Qed.
Lemma representable_common t z : standard_type t -> representable t z -> representable type_int z ->
  representable (common_int t) z.
Proof. unfold common_int. intros. destruct (_ <? _); auto. Qed.
Lemma small_in_int t z : standard_type t -> ibits t < 32 -> representable t z -> representable type_int z.
Proof.
  unfold standard_type. simpl. intros HT HL (H1 & H2). destruct t as (b & s). unfold representable, imin, imax in *. simpl in *.
  decompose [or] HT; subst; try lia; destruct s; lia.
Qed.

Lemma abs_pow_le b k n : 0 <= k <= n -> b <> 0 -> Z.abs (b ^ k) <= Z.abs (b ^ n).
Proof. intros H Hb. rewrite !Z.abs_pow. apply Z.pow_le_mono_r; lia. Qed.
Lemma abs_pow_lt b k n : 0 <= k < n -> 2 <= Z.abs b -> Z.abs (b ^ k) < Z.abs (b ^ n).
Proof. intros H Hb. rewrite !Z.abs_pow. apply Z.pow_lt_mono_r; lia. Qed.

Lemma representable_pow t b k n : standard_type t -> (isigned t = false -> 0 <= b) -> 0 <= k <= n ->
  representable t (b ^ n) -> representable t (b ^ k).
Proof.
  intros HT HS Hk. pose proof (pow_half t HT) as (H1 & H2). unfold representable, imin, imax.
  destruct (Z.eq_dec k n) as [->|Hne]; auto.
  destruct (Z.le_gt_cases 2 (Z.abs b)) as [Hb|Hb].
  - pose proof (abs_pow_lt b k n ltac:(lia) Hb). destruct (isigned t); [lia|].
    specialize (HS eq_refl). pose proof (Z.pow_nonneg b k HS). pose proof (Z.pow_nonneg b n HS). lia.
  - intros _. assert (HA : Z.abs (b ^ k) <= 1).
    { rewrite Z.abs_pow. assert (Hc : Z.abs b = 0 \/ Z.abs b = 1) by lia. destruct Hc as [->| ->].
      - destruct (Z.eq_dec k 0) as [->|]; [reflexivity|]. rewrite Z.pow_0_l by lia. lia.
      - rewrite Z.pow_1_l; lia. }
    destruct (isigned t); [lia|]. specialize (HS eq_refl). pose proof (Z.pow_nonneg b k HS). lia.
Qed.

Lemma IntPower_ok t b : standard_type t -> representable t b ->
  forall fuel n, 0 <= n -> (Z.to_nat n < fuel)%nat ->
  representable t (b ^ n) -> representable type_int (b ^ n) -> IntPower fuel t b n = Ok (b ^ n).
Proof.
  intros HT Hb. assert (HS : isigned t = false -> 0 <= b).
  { intros E. unfold representable, imin in Hb. rewrite E in Hb. lia. }
  induction fuel; intros n Hn Hf R1 R2; [lia|]. cbn [IntPower].
  destruct (Z.eqb_spec n 0) as [->|N0]; [reflexivity|].
  destruct (Z.eqb_spec n 1) as [->|N1]; [rewrite Z.pow_1_r; reflexivity|].
  rewrite Z.quot_div_nonneg by lia. rewrite Z.rem_mod_nonneg by lia.
  set (h := n / 2). assert (Hh : n = 2 * h + n mod 2) by (apply Z.div_mod; lia).
  pose proof (Z.mod_pos_bound n 2 ltac:(lia)) as Hm.
  assert (RI : forall k, 0 <= k <= n -> representable type_int (b ^ k)).
  { intros k Hk. apply (representable_pow type_int b k n); auto; [apply standard_int|discriminate]. }
  assert (RT : forall k, 0 <= k <= n -> representable t (b ^ k)) by (intros k Hk; apply (representable_pow t b k n); auto).
  rewrite IHfuel; [|lia|lia|apply RT; lia|apply RI; lia]. cbn [bind]. cbv zeta.
  rewrite (conv_id type_int) by (try apply standard_int; apply RI; lia).
  destruct (Z.eqb_spec (n mod 2) 0) as [E|E].
  - assert (EP : b ^ h * b ^ h = b ^ n) by (rewrite <- Z.pow_add_r by lia; f_equal; lia).
    rewrite imul_ok by (try apply standard_int; rewrite EP; apply RI; lia). cbn [bind]. rewrite EP, conv_id by auto. reflexivity.
  - assert (EP : b * b ^ h = b ^ (h + 1)) by (rewrite Z.pow_add_r, Z.pow_1_r by lia; ring).
    assert (EP2 : b ^ (h + 1) * b ^ h = b ^ n) by (rewrite <- Z.pow_add_r by lia; f_equal; lia).
    assert (HC : standard_type (common_int t)) by (apply standard_common; auto).
    assert (RC : forall k, 0 <= k <= n -> representable (common_int t) (b ^ k)) by (intros; apply representable_common; auto).
    rewrite (conv_id _ (b ^ h)) by (auto; apply RC; lia).
    rewrite (conv_id _ b) by (auto; rewrite <- (Z.pow_1_r b); apply RC; lia).
    rewrite imul_ok by (auto; rewrite EP; apply RC; lia). cbn [bind]. rewrite EP.
    rewrite imul_ok by (auto; rewrite EP2; apply RC; lia). cbn [bind]. rewrite EP2, conv_id by auto. reflexivity.
Qed.
End Power.

Lemma c53_int_power_partial : forall (t : int_type) (base power : Z) (fuel : nat),
  standard_type t -> representable t base -> representable t power -> (0 <= power)%Z -> Z.to_nat power < fuel ->
  representable t (base ^ power) ->
  ((ibits t < 32)%Z \/ t = type_int \/ representable type_int (base ^ power)) ->
  IntPower fuel t base power = Ok (base ^ power)%Z.
Proof.
  intros t base power fuel HT Hb Hp H0 Hf HR HC. apply IntPower_ok; auto.
  destruct HC as [HC|[->|HC]]; auto. apply (small_in_int t); auto.
Qed.

Section Exact.
Local Open Scope Z_scope.
Lemma quot_half n : 2 <= n -> Z.quot n 2 = n / 2 /\ Z.rem n 2 = n mod 2 /\ n = 2 * (n / 2) + n mod 2 /\ 0 <= n mod 2 < 2.
Proof.
  intros H. rewrite Z.quot_div_nonneg, Z.rem_mod_nonneg by lia. repeat split; try (apply Z.mod_pos_bound; lia). apply Z.div_mod; lia.
Qed.
Lemma conv_int_range z : representable type_int (conv type_int z).
Proof.
  unfold representable, conv, type_int, imin, imax. cbn [isigned ibits].
  pose proof (Z.mod_pos_bound (z + 2 ^ (32 - 1)) (2 ^ 32) ltac:(lia)). lia.
Qed.
Lemma imul_signed t a b r : isigned t = true -> imul t a b = Ok r -> r = a * b /\ representable t (a * b).
Proof.
  intros E. unfold imul. rewrite E. destruct (_ && _)%bool eqn:L; [|discriminate]. intros H. injection H as <-.
  apply andb_true_iff in L. destruct L as (L1 & L2). apply Z.leb_le in L1, L2. split; auto. split; auto.
Qed.
Lemma wide_standard t : In (ibits t) [32; 64] -> standard_type t /\ common_int t = t.
Proof.
  intros H. split; [unfold standard_type; simpl in *; tauto|]. unfold common_int. destruct (Z.ltb_spec (ibits t) 32); auto.
  simpl in H. lia.
Qed.
Lemma nonneg_wide t z : In (ibits t) [32; 64] -> 0 <= z -> representable type_int z -> representable t z.
Proof.
  intros H Hz (_ & H2). unfold representable, imin, imax, type_int in *. cbn [isigned ibits] in H2. simpl in H.
  destruct H as [E|[E|[]]]; rewrite <- E; destruct (isigned t); lia.
Qed.
Lemma signed_wide t z : In (ibits t) [32; 64] -> isigned t = true -> representable type_int z -> representable t z.
Proof.
  intros H Hs (H1 & H2). unfold representable, imin, imax, type_int in *. cbn [isigned ibits] in *. simpl in H. rewrite Hs.
  destruct H as [E|[E|[]]]; rewrite <- E; lia.
Qed.
Lemma power_odd t b n fuel : In (ibits t) [32; 64] -> representable t b -> 2 <= n -> n mod 2 = 1 -> (Z.to_nat n < fuel)%nat ->
  representable t (b ^ n) -> representable type_int (b ^ (n / 2)) -> IntPower fuel t b n = Ok (b ^ n).
Proof.
  intros HW Hb Hn HM Hf HR HI. destruct (wide_standard t HW) as (HT & HC). destruct (quot_half n Hn) as (E1 & E2 & E3 & _).
  assert (HS : isigned t = false -> 0 <= b).
  { intros E. unfold representable, imin in Hb. rewrite E in Hb. lia. }
  assert (RT : forall k, 0 <= k <= n -> representable t (b ^ k)) by (intros k Hk; apply (representable_pow t b k n); auto).
  destruct fuel as [|fuel]; [lia|]. cbn [IntPower]. rewrite (proj2 (Z.eqb_neq n 0)), (proj2 (Z.eqb_neq n 1)) by lia.
  rewrite E1, E2, HM. set (h := n / 2) in *. rewrite IntPower_ok; auto; [|lia|lia|apply RT; lia]. cbn [bind]. cbv zeta.
  rewrite (conv_id type_int) by (auto; apply standard_int). rewrite (proj2 (Z.eqb_neq 1 0)) by lia. rewrite HC.
  rewrite (conv_id t b), (conv_id t (b ^ h)) by (auto; apply RT; lia).
  assert (EP : b * b ^ h = b ^ (h + 1)) by (rewrite Z.pow_add_r, Z.pow_1_r by lia; ring).
  assert (EP2 : b ^ (h + 1) * b ^ h = b ^ n) by (rewrite <- Z.pow_add_r by lia; f_equal; lia).
  rewrite imul_ok by (auto; rewrite EP; apply RT; lia). cbn [bind]. rewrite EP.
  rewrite imul_ok by (auto; rewrite EP2; apply RT; lia). cbn [bind]. rewrite EP2, conv_id by auto. reflexivity.
Qed.
Lemma power_even_conv t b n fuel : In (ibits t) [32; 64] -> 2 <= n -> n mod 2 = 0 ->
  IntPower fuel t b n = Ok (b ^ n) -> representable type_int (b ^ n).
Proof.
  intros HW Hn HM. destruct (wide_standard t HW) as (HT & HC). destruct (quot_half n Hn) as (E1 & E2 & E3 & _).
  destruct fuel as [|fuel]; [discriminate|]. cbn [IntPower]. rewrite (proj2 (Z.eqb_neq n 0)), (proj2 (Z.eqb_neq n 1)) by lia.
  rewrite E1, E2, HM. destruct (IntPower fuel t b (n / 2)) as [r| | | | |]; try discriminate. cbn [bind]. cbv zeta.
  rewrite (proj2 (Z.eqb_eq 0 0)) by lia. destruct (imul type_int (conv type_int r) (conv type_int r)) as [q| | | | |] eqn:EQ; try discriminate.
  cbn [bind]. intros H. injection H as H. destruct (imul_signed type_int _ _ _ eq_refl EQ) as (-> & HQ).
  assert (0 <= conv type_int r * conv type_int r) by (apply Z.square_nonneg).
  rewrite conv_id in H; auto; [rewrite <- H; auto|]. apply nonneg_wide; auto.
Qed.
Lemma power_odd_conv t b n fuel : In (ibits t) [32; 64] -> isigned t = true -> representable t b -> 2 <= n -> n mod 2 = 1 ->
  representable t (b ^ n) -> IntPower fuel t b n = Ok (b ^ n) -> representable type_int (b ^ (n / 2)).
Proof.
  intros HW HS Hb Hn HM HR. destruct (wide_standard t HW) as (HT & HC). destruct (quot_half n Hn) as (E1 & E2 & E3 & _).
  destruct fuel as [|fuel]; [discriminate|]. cbn [IntPower]. rewrite (proj2 (Z.eqb_neq n 0)), (proj2 (Z.eqb_neq n 1)) by lia.
  rewrite E1, E2, HM. set (h := n / 2) in *. destruct (IntPower fuel t b h) as [r| | | | |]; try discriminate. cbn [bind]. cbv zeta.
  rewrite (proj2 (Z.eqb_neq 1 0)), HC by lia. pose proof (conv_int_range r) as HI. set (tmp := conv type_int r) in *. clearbody tmp.
  rewrite (conv_id t b), (conv_id t tmp) by (auto; apply signed_wide; auto).
  destruct (imul t b tmp) as [m| | | | |] eqn:EM; try discriminate. cbn [bind]. destruct (imul_signed _ _ _ _ HS EM) as (-> & HM1).
  destruct (imul t (b * tmp) tmp) as [q| | | | |] eqn:EQ; try discriminate. cbn [bind]. destruct (imul_signed _ _ _ _ HS EQ) as (-> & HM2).
  rewrite conv_id by auto. intros H. injection H as H.
  assert (EP : b ^ n = b * (b ^ h * b ^ h)).
  { rewrite <- Z.pow_add_r by lia. rewrite <- Z.pow_succ_r by lia. f_equal. lia. }
  unfold representable, imin, imax, type_int in HI |- *. cbn [isigned ibits] in *.
  destruct (Z.eq_dec b 0) as [->|B0]; [rewrite Z.pow_0_l by lia; lia|].
  assert (SQ : tmp * tmp = b ^ h * b ^ h) by (apply (Z.mul_reg_l _ _ b B0); lia).
  set (y := b ^ h) in *. assert (AY : Z.abs y <= 2147483648).
  { assert (Z.abs tmp <= 2147483648) by lia. assert (Z.abs tmp * Z.abs tmp = Z.abs y * Z.abs y) by (rewrite <- !Z.abs_mul, SQ; auto). nia. }
  destruct (Z.eq_dec y 2147483648) as [EY|]; [|lia]. exfalso.
  rewrite EP, EY in HR.
  assert (HB : -2 <= b <= 1).
  { unfold representable, imin, imax in HR. rewrite HS in HR. simpl in HW. destruct HW as [E|[E|[]]]; rewrite <- E in HR; lia. }
  assert (B1 : b <> 1) by (intros ->; unfold y in EY; rewrite Z.pow_1_l in EY; lia).
  assert (B2 : b <> -1).
  { intros ->. pose proof (abs_pow_le (-1) 0 h ltac:(lia) ltac:(lia)). assert (Z.abs y = 1) by (unfold y; rewrite Z.abs_pow; simpl; apply Z.pow_1_l; lia). lia. }
  assert (b = -2) by lia. subst b. assert (P31 : 2 ^ h = 2 ^ 31).
  { change (2 ^ 31) with (Z.abs 2147483648). rewrite <- EY. unfold y. rewrite Z.abs_pow. reflexivity. }
  apply Z.pow_inj_r in P31; try lia. unfold y in EY. rewrite P31 in EY. discriminate.
Qed.
End Exact.
(** When exactly the wide types give the right result. *)
Lemma c53_int_power_wide : forall (t : int_type) (base power : Z) (fuel : nat),
  In (ibits t) [32; 64]%Z -> representable t base -> (0 <= power)%Z -> Z.to_nat power < fuel ->
  representable t (base ^ power) ->
  ((power <= 1)%Z -> IntPower fuel t base power = Ok (base ^ power)%Z) /\
  ((2 <= power)%Z -> (power mod 2 = 0)%Z ->
     (IntPower fuel t base power = Ok (base ^ power)%Z <-> representable type_int (base ^ power))) /\
  ((2 <= power)%Z -> (power mod 2 = 1)%Z -> representable type_int (base ^ (power / 2)) ->
     IntPower fuel t base power = Ok (base ^ power)%Z) /\
  ((2 <= power)%Z -> (power mod 2 = 1)%Z -> isigned t = true ->
     (IntPower fuel t base power = Ok (base ^ power)%Z <-> representable type_int (base ^ (power / 2)))).
Proof.
  intros t b n fuel HW Hb H0 Hf HR. destruct (wide_standard t HW) as (HT & _). split; [|split; [|split]].
  - intros H. destruct fuel as [|fuel]; [lia|]. cbn [IntPower]. assert (C : (n = 0 \/ n = 1)%Z) by lia.
    destruct C as [->| ->]; [reflexivity|]. simpl. f_equal. symmetry. apply Z.pow_1_r.
  - intros Hn HM. split; [apply power_even_conv; auto|]. intros HI. apply IntPower_ok; auto.
  - intros Hn HM HI. apply power_odd; auto.
  - intros Hn HM HS. split; [apply power_odd_conv; auto|]. apply power_odd; auto.
Qed.

Lemma c53_int_power_refuted :
  (exists base power, representable (mkInt 64 true) base /\ (0 <= power)%Z /\
     representable (mkInt 64 true) (base ^ power) /\
     forall fuel r, IntPower fuel (mkInt 64 true) base power <> Ok r) /\
  (exists base power r, representable (mkInt 64 false) base /\ (0 <= power)%Z /\
     representable (mkInt 64 false) (base ^ power) /\ r <> (base ^ power)%Z /\
     forall fuel, 2 <= fuel -> IntPower fuel (mkInt 64 false) base power = Ok r) /\
  (exists base power, representable (mkInt 32 false) base /\ (0 <= power)%Z /\
     representable (mkInt 32 false) (base ^ power) /\
     forall fuel r, IntPower fuel (mkInt 32 false) base power <> Ok r).
Proof.
  split; [|split].
  - exists 10%Z, 10%Z. do 3 (split; [vm_compute; try split; congruence|]).
    intros fuel r. destruct fuel as [|[|[|[|f]]]]; vm_compute; discriminate.
  - exists 4294967295%Z, 2%Z, 1%Z. do 4 (split; [vm_compute; try split; congruence|]).
    intros fuel Hf. destruct fuel as [|[|f]]; [lia|lia|]. vm_compute. reflexivity.
  - exists 65535%Z, 2%Z. do 3 (split; [vm_compute; try split; congruence|]).
    intros fuel r. destruct fuel as [|[|f]]; vm_compute; discriminate.
Qed.

(** ** C54 *)
Section Sorting.
Context {T : Type} (lt : T -> T -> bool) (HO : strict_weak_order lt) (v : list T) (d : T).

(** The order in which a stable sort lists the positions. *)
Definition before (x y : nat) : Prop :=
  lt (nth y v d) (nth x v d) = false /\ (lt (nth x v d) (nth y v d) = false -> x < y).

Lemma before_trans x y z : before x y -> before y z -> before x z.
Proof.
  intros (A1 & A2) (B1 & B2). destruct HO as (_ & _ & HN). split.
  - eapply HN; eauto.
  - intros E. destruct (lt (nth x v d) (nth y v d)) eqn:E1.
    + exfalso. assert (E2 : lt (nth x v d) (nth y v d) = false) by (eapply HN; [exact E|exact B1]). congruence.
    + destruct (lt (nth y v d) (nth z v d)) eqn:E2.
      * exfalso. assert (E3 : lt (nth y v d) (nth z v d) = false) by (eapply HN; [exact A1|exact E]). congruence.
      * specialize (A2 eq_refl). specialize (B2 eq_refl). lia.
Qed.
Lemma before_asym x y : before x y -> before y x -> False.
Proof. intros (A1 & A2) (B1 & B2). specialize (A2 B1). specialize (B2 A1). lia. Qed.

Lemma index_less_ok x y : x < length v -> y < length v -> index_less lt v x y = Ok (lt (nth x v d) (nth y v d)).
Proof. intros Hx Hy. unfold index_less. rewrite !(get_ok d) by auto. reflexivity. Qed.

Lemma lt_asym a b : lt a b = true -> lt b a = false.
Proof.
  intros H. destruct (lt b a) eqn:E; auto. destruct HO as (HI & HT & _). rewrite <- (HI a). symmetry. eapply HT; eauto.
Qed.

Lemma sort_insert_ok x l : x < length v -> Forall (fun y => y < length v) l -> Forall (fun y => x < y) l ->
  StronglySorted before l ->
  exists l', sort_insert (index_less lt v) x l = Ok l' /\ Permutation l' (x :: l) /\ StronglySorted before l'.
Proof.
  intros Hx HV HX HS. induction HS as [|y l HS IH HF]; cbn [sort_insert].
  - exists [x]. split; auto. split; auto. repeat constructor.
  - inversion HV as [|? ? Hy HV']; subst. inversion HX as [|? ? Hxy HX']; subst.
    rewrite index_less_ok by auto. cbn [bind]. destruct (lt (nth y v d) (nth x v d)) eqn:E.
    + destruct (IH HV' HX') as (l' & El & HP & HSl). rewrite El. cbn [bind]. exists (y :: l'). split; auto. split.
      * rewrite HP. apply perm_swap.
      * constructor; auto. rewrite HP. constructor; auto. split; [apply lt_asym; auto|congruence].
    + exists (x :: y :: l). split; auto. split; auto.
      assert (HB : before x y) by (split; auto).
      constructor; [constructor; auto|]. constructor; auto. eapply Forall_impl; [|exact HF]. intros z Hz. eapply before_trans; eauto.
Qed.

Lemma stable_sort_ok n : forall k, n + k = length v ->
  exists l', stable_sort (index_less lt v) (seq k n) = Ok l' /\ Permutation l' (seq k n) /\ StronglySorted before l'.
Proof.
  induction n; intros k Hk; cbn [seq stable_sort].
  - exists []. split; auto. split; auto. constructor.
  - destruct (IHn (S k)) as (l' & E & HP & HS); [lia|]. rewrite E. cbn [bind].
    destruct (sort_insert_ok k l') as (l2 & E2 & HP2 & HS2); auto; [lia| | |].
    + rewrite HP. apply Forall_forall. intros y Hy. apply in_seq in Hy. lia.
    + rewrite HP. apply Forall_forall. intros y Hy. apply in_seq in Hy. lia.
    + exists l2. split; auto. split; auto. rewrite HP2. constructor. auto.
Qed.

Lemma sorted_unique l : forall l', StronglySorted before l -> StronglySorted before l' -> Permutation l l' -> l = l'.
Proof.
  induction l as [|x l IH]; intros l' HS HS' HP.
  - symmetry. apply Permutation_nil. auto.
  - destruct l' as [|y l']; [apply Permutation_sym, Permutation_nil in HP; discriminate|].
    apply StronglySorted_inv in HS. destruct HS as (HS & HF). apply StronglySorted_inv in HS'. destruct HS' as (HS' & HF').
    assert (E : x = y).
    { assert (Hy : In y (x :: l)) by (rewrite HP; left; auto). assert (Hx : In x (y :: l')) by (rewrite <- HP; left; auto).
      destruct Hy as [->|Hy]; auto. destruct Hx as [->|Hx]; auto. exfalso.
      rewrite Forall_forall in HF, HF'. apply (before_asym x y); auto. }
    subst y. f_equal. apply IH; auto. eapply Permutation_cons_inv; eauto.
Qed.

Lemma sorted_nth l : StronglySorted before l <-> forall a b, a < b < length l -> before (nth a l 0) (nth b l 0).
Proof.
  induction l as [|x l IH].
  - split; [intros _ a b H; simpl in H; lia|constructor].
  - split.
    + intros HS. apply StronglySorted_inv in HS. destruct HS as (HS & HF). intros a b (H1 & H2). destruct b; [lia|]. simpl in H2.
      destruct a; simpl.
      * rewrite Forall_forall in HF. apply HF, nth_In. lia.
      * apply IH; auto. lia.
    + intros H. constructor.
      * apply IH. intros a b Hab. apply (H (S a) (S b)). simpl. lia.
      * apply Forall_forall. intros y Hy. apply (In_nth _ _ 0) in Hy. destruct Hy as (b & Hb & <-).
        apply (H 0 (S b)). simpl. lia.
Qed.

Lemma stable_sorting_iff idx : stable_sorting lt v idx <-> Permutation idx (seq 0 (length v)) /\ StronglySorted before idx.
Proof.
  unfold stable_sorting. split; intros (HP & H); (split; [exact HP|]).
  - apply sorted_nth. intros a b Hab. apply H. auto.
  - intros a b d' Hab. pose proof (proj1 (sorted_nth idx) H a b Hab) as HB.
    assert (HI : forall k, k < length idx -> nth k idx 0 < length v).
    { intros k Hk. assert (Hin : In (nth k idx 0) (seq 0 (length v))) by (rewrite <- HP; apply nth_In; auto).
      apply in_seq in Hin. lia. }
    rewrite !(nth_indep v d' d) by (apply HI; lia). exact HB.
Qed.
End Sorting.

Lemma c54_sorts : forall (T : Type) (lt : T -> T -> bool) (v : list T),
  strict_weak_order lt -> exists idx, IndexListSort lt v = Ok idx /\ stable_sorting lt v idx.
Proof.
  intros T lt v HO. destruct v as [|d v'] eqn:Ev.
  - exists []. split; auto. split; [constructor|]. simpl. intros. lia.
  - rewrite <- Ev. destruct (stable_sort_ok lt HO v d (length v) 0 ltac:(lia)) as (l & E & HP & HS).
    exists l. split; auto. apply (stable_sorting_iff lt v d). auto.
Qed.

Lemma c54_unique : forall (T : Type) (lt : T -> T -> bool) (v : list T) (idx idx' : list nat),
  stable_sorting lt v idx -> stable_sorting lt v idx' -> idx = idx'.
Proof.
  intros T lt v idx idx' H H'. destruct v as [|d v'] eqn:Ev.
  - destruct H as (H & _), H' as (H' & _). simpl in *. apply Permutation_sym, Permutation_nil in H, H'. congruence.
  - rewrite <- Ev in *. apply (stable_sorting_iff lt v d) in H, H'. destruct H as (HP & HS), H' as (HP' & HS').
    apply (sorted_unique lt v d); auto. rewrite HP, HP'. reflexivity.
Qed.
