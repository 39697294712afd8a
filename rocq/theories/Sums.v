(** Finite sums, binomial coefficients, Bernstein polynomials: lemma library. *)
From Coq Require Import Arith Lia List ZArith NArith Bool Ring Field.
From Verif Require Import Prelude Scalar Spec.
Import ListNotations.

Section VSum.
Context {T V : Type} {o : SOps T} {ov : VOps T V} {F : SField T} {M : VMod T V}.
Add Field Tfield : (@sf_th T o F).
Add Ring Ering : (@ext_ring T V o ov F M).

Ltac vring := to_ext; ring.

Lemma vsum_ext n (f g : nat -> V) :
  (forall i, i < n -> f i = g i) -> vsum n f = vsum n g.
Proof. induction n; simpl; intros H; auto. rewrite IHn, H; auto. Qed.

Lemma vsum_zero n (f : nat -> V) : (forall i, i < n -> f i = v0) -> vsum n f = v0.
Proof. induction n; simpl; intros H; auto. rewrite IHn, H; auto. apply vm_0. Qed.

Lemma vsum_add n (f g : nat -> V) :
  vsum n (fun i => (f i + g i)%v) = (vsum n f + vsum n g)%v.
Proof. induction n; simpl; [now rewrite vm_0|]. rewrite IHn. vring. Qed.

Lemma vsum_sub n (f g : nat -> V) :
  vsum n (fun i => (f i - g i)%v) = (vsum n f - vsum n g)%v.
Proof. induction n; simpl; [vring|]. rewrite IHn. vring. Qed.

Lemma vsum_opp n (f : nat -> V) :
  vsum n (fun i => (- f i)%v) = (- vsum n f)%v.
Proof. induction n; simpl; [vring|]. rewrite IHn. vring. Qed.

Lemma vsum_scale n (c : T) (f : nat -> V) :
  vsum n (fun i => (c * f i)%v) = (c * vsum n f)%v.
Proof. induction n; simpl; [vring|]. rewrite IHn. vring. Qed.

Lemma vsum_scale_l n (c : nat -> T) (v : V) :
  vsum n (fun i => (c i * v)%v) = (ssum n c * v)%v.
Proof. induction n; simpl; [vring|]. rewrite IHn. vring. Qed.

Lemma vsum_swap n m (f : nat -> nat -> V) :
  vsum n (fun i => vsum m (fun j => f i j)) = vsum m (fun j => vsum n (fun i => f i j)).
Proof.
  induction n; simpl.
  - symmetry. apply vsum_zero; auto.
  - rewrite IHn, <- vsum_add. reflexivity.
Qed.

Lemma vsum_first n (f : nat -> V) :
  vsum (S n) f = (f 0 + vsum n (fun i => f (S i)))%v.
Proof.
  induction n; [simpl; vring|].
  change (vsum (S (S n)) f) with (vsum (S n) f + f (S n))%v. rewrite IHn. simpl. vring.
Qed.

Lemma vsum_app n m (f : nat -> V) :
  vsum (n + m) f = (vsum n f + vsum m (fun i => f (n + i)%nat))%v.
Proof.
  induction m; simpl.
  - rewrite Nat.add_0_r. vring.
  - rewrite Nat.add_succ_r. simpl. rewrite IHm. vring.
Qed.

Lemma vsum_single n k (f : nat -> V) :
  k < n -> (forall i, i < n -> i <> k -> f i = v0) -> vsum n f = f k.
Proof.
  intros Hk H. replace n with (k + S (n - k - 1)) by lia.
  rewrite vsum_app, vsum_first.
  rewrite vsum_zero by (intros; apply H; lia).
  rewrite (vsum_zero (n - k - 1)) by (intros; apply H; lia).
  rewrite Nat.add_0_r. vring.
Qed.

Lemma vsum_rev n (f : nat -> V) : vsum n f = vsum n (fun i => f (n - 1 - i)).
Proof.
  induction n; auto. rewrite (vsum_first n (fun i => f (S n - 1 - i))).
  change (vsum (S n) f) with (vsum n f + f n)%v. rewrite IHn.
  replace (S n - 1 - 0) with n by lia. rewrite vm_comm. f_equal.
  apply vsum_ext. intros. f_equal. lia.
Qed.

Lemma vsum_trunc n m (f : nat -> V) :
  n <= m -> (forall i, n <= i < m -> f i = v0) -> vsum m f = vsum n f.
Proof.
  intros H Z. replace m with (n + (m - n)) by lia. rewrite vsum_app.
  rewrite (vsum_zero (m - n)) by (intros; apply Z; lia). vring.
Qed.

(** Flattening of nested sums; the inner index is fastest. *)
Lemma vsum_mul a b (f : nat -> V) :
  vsum (a * b) f = vsum b (fun j => vsum a (fun i => f (i + a * j))).
Proof.
  induction b.
  - rewrite Nat.mul_0_r. reflexivity.
  - rewrite Nat.mul_succ_r, vsum_app, IHb. simpl. f_equal.
    apply vsum_ext. intros. f_equal. lia.
Qed.

(** Triangular exchange. *)
Lemma vsum_triangle n (f : nat -> nat -> V) :
  vsum n (fun k => vsum (S k) (fun i => f i (k - i)%nat)) =
  vsum n (fun i => vsum (n - i) (fun j => f i j)).
Proof.
  induction n; [reflexivity|].
  change (vsum (S n) (fun k => vsum (S k) (fun i => f i (k - i)%nat))) with
    (vsum n (fun k => vsum (S k) (fun i => f i (k - i)%nat)) +
     vsum (S n) (fun i => f i (n - i)%nat))%v.
  rewrite IHn.
  change (vsum (S n) (fun i => vsum (S n - i) (fun j => f i j))) with
    (vsum n (fun i => vsum (S n - i) (fun j => f i j)) +
     vsum (S n - n) (fun j => f n j))%v.
  rewrite (vsum_ext n (fun i => vsum (S n - i) _)
             (fun i => (vsum (n - i) (fun j => f i j) + f i (n - i)%nat)%v)).
  2:{ intros i Hi. replace (S n - i) with (S (n - i)) by lia. reflexivity. }
  rewrite vsum_add.
  replace (S n - n) with 1 by lia. simpl (vsum 1 _).
  change (vsum (S n) (fun i => f i (n - i))) with
    (vsum n (fun i => f i (n - i)%nat) + f n (n - n)%nat)%v.
  rewrite Nat.sub_diag. vring.
Qed.

(** Cauchy product of two finite sums: the inner index range is the one used by
    the source, [max(0, k - n) .. min(k, m)]. *)
Lemma vsum_cauchy m n (f : nat -> nat -> V) :
  vsum (S m) (fun i => vsum (S n) (fun j => f i j)) =
  vsum (S (m + n)) (fun k =>
    vsum (S (min k m) - (k - n)) (fun d => f (k - n + d) (k - (k - n + d)))).
Proof.
  set (g := fun i j => if (i <=? m) && (j <=? n) then f i j else v0).
  transitivity (vsum (S (m + n)) (fun i => vsum (S (m + n) - i) (fun j => g i j))).
  - symmetry. rewrite (vsum_trunc (S m)).
    + apply vsum_ext. intros i Hi. rewrite (vsum_trunc (S n)).
      * apply vsum_ext. intros j Hj. unfold g.
        rewrite (proj2 (Nat.leb_le i m)), (proj2 (Nat.leb_le j n)) by lia. reflexivity.
      * lia.
      * intros j Hj. unfold g. rewrite (proj2 (Nat.leb_gt j n)) by lia.
        now rewrite andb_false_r.
    + lia.
    + intros i Hi. apply vsum_zero. intros j Hj. unfold g.
      now rewrite (proj2 (Nat.leb_gt i m)) by lia.
  - rewrite <- vsum_triangle. apply vsum_ext. intros k Hk.
    set (lo := k - n). set (len := S (min k m) - lo).
    replace (S k) with (lo + (len + (S k - lo - len))) by (subst lo len; lia).
    rewrite !vsum_app.
    rewrite vsum_zero.
    2:{ intros i Hi. unfold g. rewrite (proj2 (Nat.leb_gt (k - i) n)) by (subst lo; lia).
        now rewrite andb_false_r. }
    rewrite (vsum_zero (S k - lo - len)).
    2:{ intros i Hi. unfold g.
        rewrite (proj2 (Nat.leb_gt (lo + (len + i)) m)) by (subst lo len; lia). auto. }
    rewrite vm_0, vadd_0_r. apply vsum_ext. intros d Hd. unfold g.
    rewrite (proj2 (Nat.leb_le (lo + d) m)), (proj2 (Nat.leb_le (k - (lo + d)) n))
      by (subst lo len; lia).
    reflexivity.
Qed.

End VSum.

(** Linear maps commute with sums. *)
Lemma vsum_linear {T V W} {o : SOps T} {ov : VOps T V} {ow : VOps T W}
  (h : V -> W) n (f : nat -> V) :
  h v0 = v0 -> (forall a b, h (a + b)%v = (h a + h b)%v) ->
  h (vsum n f) = vsum n (fun i => h (f i)).
Proof. intros H0 Ha. induction n; simpl; auto. rewrite Ha, IHn. reflexivity. Qed.

Lemma ssum_vsum {T} {o : SOps T} n (f : nat -> T) : ssum n f = vsum n f.
Proof. reflexivity. Qed.

Section SSum.
Context {T : Type} {o : SOps T} {F : SField T}.
Add Field Tfield2 : (@sf_th T o F).
Local Open Scope s_scope.

Lemma ssum_ext n (f g : nat -> T) : (forall i, (i < n)%nat -> f i = g i) -> ssum n f = ssum n g.
Proof. exact (vsum_ext (V := T) n f g). Qed.
Lemma ssum_zero n (f : nat -> T) : (forall i, (i < n)%nat -> f i = s0) -> ssum n f = s0.
Proof. exact (vsum_zero (V := T) n f). Qed.
Lemma ssum_add n (f g : nat -> T) : ssum n (fun i => f i + g i) = ssum n f + ssum n g.
Proof. exact (vsum_add (V := T) n f g). Qed.
Lemma ssum_scale n (c : T) (f : nat -> T) : ssum n (fun i => c * f i) = c * ssum n f.
Proof. exact (vsum_scale (V := T) n c f). Qed.
Lemma ssum_first n (f : nat -> T) : ssum (S n) f = f 0%nat + ssum n (fun i => f (S i)).
Proof. exact (vsum_first (V := T) n f). Qed.
Lemma ssum_app n m (f : nat -> T) : ssum (n + m) f = ssum n f + ssum m (fun i => f (n + i)%nat).
Proof. exact (vsum_app (V := T) n m f). Qed.
Lemma ssum_single n k (f : nat -> T) :
  (k < n)%nat -> (forall i, (i < n)%nat -> i <> k -> f i = s0) -> ssum n f = f k.
Proof. exact (vsum_single (V := T) n k f). Qed.
Lemma ssum_mul a b (f : nat -> T) :
  ssum (a * b) f = ssum b (fun j => ssum a (fun i => f (i + a * j)%nat)).
Proof. exact (vsum_mul (V := T) a b f). Qed.
Lemma ssum_swap n m (f : nat -> nat -> T) :
  ssum n (fun i => ssum m (fun j => f i j)) = ssum m (fun j => ssum n (fun i => f i j)).
Proof. exact (vsum_swap (V := T) n m f). Qed.

(** ** Binomial coefficients *)
Lemma binom_n_0 n : binom n 0 = 1%N. Proof. destruct n; reflexivity. Qed.
Lemma binom_SS n k : binom (S n) (S k) = (binom n k + binom n (S k))%N. Proof. reflexivity. Qed.
Lemma binom_gt n k : (n < k)%nat -> binom n k = 0%N.
Proof.
  revert k; induction n; destruct k; simpl; intros; try lia.
  rewrite !IHn by lia. reflexivity.
Qed.
Lemma binom_nn n : binom n n = 1%N.
Proof. induction n; auto. rewrite binom_SS, IHn, binom_gt by lia. reflexivity. Qed.
Lemma binom_pos n k : (k <= n)%nat -> (0 < binom n k)%N.
Proof.
  revert k; induction n; destruct k; simpl; intros; try lia.
  specialize (IHn k). lia.
Qed.
Lemma binom_sym n k : (k <= n)%nat -> binom n k = binom n (n - k).
Proof.
  revert k; induction n; intros k Hk.
  - replace k with 0%nat by lia. reflexivity.
  - destruct k.
    + rewrite binom_n_0. replace (S n - 0)%nat with (S n) by lia. now rewrite binom_nn.
    + destruct (Nat.eq_dec k n) as [->|Hn].
      * rewrite Nat.sub_diag, binom_nn, binom_n_0. reflexivity.
      * rewrite binom_SS. replace (S n - S k)%nat with (S (n - S k)) by lia.
        rewrite binom_SS. rewrite (IHn (S k)) by lia. rewrite (IHn k) by lia.
        replace (n - k)%nat with (S (n - S k)) by lia. lia.
Qed.

(** (k+1) C(n+1,k+1) = (n+1) C(n,k) *)
Lemma binom_absorb n k :
  (N.of_nat (S k) * binom (S n) (S k) = N.of_nat (S n) * binom n k)%N.
Proof.
  revert k; induction n; intros k.
  - destruct k; simpl; [reflexivity|]. destruct k; simpl; lia.
  - rewrite binom_SS. destruct k.
    + rewrite !binom_n_0. specialize (IHn 0%nat). rewrite binom_n_0 in IHn. lia.
    + pose proof (IHn k) as H1. pose proof (IHn (S k)) as H2.
      pose proof (binom_SS n k) as H3.
      rewrite N.mul_add_distr_l, H2.
      transitivity (N.of_nat (S n) * (binom n k + binom n (S k)) + binom (S n) (S k))%N;
        [|rewrite <- H3; lia].
      rewrite N.mul_add_distr_l, <- H1. lia.
Qed.
(** (n+1-k) C(n+1,k) = (n+1) C(n,k) *)
Lemma binom_absorb2 n k :
  (k <= n)%nat -> (N.of_nat (S n - k) * binom (S n) k = N.of_nat (S n) * binom n k)%N.
Proof.
  intros H. rewrite (binom_sym (S n) k), (binom_sym n k) by lia.
  replace (S n - k)%nat with (S (n - k)) by lia. apply binom_absorb.
Qed.
(** C(n,m) C(m,k) = C(n,k) C(n-k,m-k) *)
Lemma binom_trinomial n m k :
  (k <= m)%nat -> (m <= n)%nat ->
  (binom n m * binom m k = binom n k * binom (n - k) (m - k))%N.
Proof.
  revert n m; induction k; intros n m Hk Hm.
  - rewrite !binom_n_0, !Nat.sub_0_r. lia.
  - destruct m as [|m]; [lia|]. destruct n as [|n]; [lia|].
    specialize (IHk n m ltac:(lia) ltac:(lia)).
    replace (S n - S k)%nat with (n - k)%nat by lia.
    replace (S m - S k)%nat with (m - k)%nat by lia.
    pose proof (binom_absorb n m) as E1. pose proof (binom_absorb m k) as E2.
    pose proof (binom_absorb n k) as E3.
    assert (Hp : N.of_nat (S m) <> 0%N) by lia.
    assert (Hq : N.of_nat (S k) <> 0%N) by lia.
    apply (N.mul_cancel_l _ _ (N.of_nat (S m) * N.of_nat (S k))%N); [lia|].
    transitivity ((N.of_nat (S m) * binom (S n) (S m)) * (N.of_nat (S k) * binom (S m) (S k)))%N; [lia|].
    rewrite E1, E2.
    transitivity ((N.of_nat (S m)) * (N.of_nat (S k) * binom (S n) (S k)) * binom (n - k) (m - k))%N; [|lia].
    rewrite E3.
    transitivity (N.of_nat (S m) * N.of_nat (S n) * (binom n m * binom m k))%N; [lia|].
    rewrite IHk. lia.
Qed.

Lemma sofN_1 : sofN 1 = (s1 : T).
Proof. exact sofnat_1. Qed.
Lemma sofN_neq0 n : (0 < n)%N -> sofN n <> (s0 : T).
Proof. intros H. rewrite <- (N.succ_pred n) by lia. apply sf_char0. Qed.
Lemma sbinom_neq0 n k : (k <= n)%nat -> sofN (binom n k) <> (s0 : T).
Proof. intros. apply sofN_neq0, binom_pos; auto. Qed.

(** Binomial theorem. *)
Lemma binomial_theorem (a b : T) n :
  spow (a + b) n = ssum (S n) (fun i => sofN (binom n i) * spow a i * spow b (n - i)).
Proof.
  induction n.
  - simpl. rewrite sofN_1. ring.
  - rewrite spow_S, IHn.
    rewrite (ssum_first (S n)).
    rewrite (ssum_ext (S n) (fun i => sofN (binom (S n) (S i)) * _ * _)
      (fun i => a * (sofN (binom n i) * spow a i * spow b (n - i)) +
                sofN (binom n (S i)) * spow a (S i) * spow b (n - i))).
    2:{ intros i Hi. rewrite binom_SS, sofN_add.
        replace (S n - S i)%nat with (n - i)%nat by lia. rewrite spow_S. ring. }
    rewrite ssum_add, ssum_scale.
    assert (E : b * ssum (S n) (fun i => sofN (binom n i) * spow a i * spow b (n - i)) =
      sofN (binom (S n) 0) * spow a 0 * spow b (S n - 0) +
      ssum (S n) (fun i => sofN (binom n (S i)) * spow a (S i) * spow b (n - i))).
    { rewrite <- ssum_scale. rewrite ssum_first.
      change (ssum (S n) (fun i => sofN (binom n (S i)) * spow a (S i) * spow b (n - i)))
        with (ssum n (fun i => sofN (binom n (S i)) * spow a (S i) * spow b (n - i)) +
              sofN (binom n (S n)) * spow a (S n) * spow b (n - n)).
      rewrite (binom_gt n (S n)) by lia. rewrite sf_ofN0.
      rewrite !binom_n_0, !Nat.sub_0_r. rewrite spow_S.
      rewrite (ssum_ext n (fun i => b * _)
                 (fun i => sofN (binom n (S i)) * spow a (S i) * spow b (n - i))).
      - ring.
      - intros i Hi. replace (n - i)%nat with (S (n - S i)) by lia. rewrite (spow_S b). ring. }
    transitivity (a * ssum (S n) (fun i => sofN (binom n i) * spow a i * spow b (n - i)) +
                  b * ssum (S n) (fun i => sofN (binom n i) * spow a i * spow b (n - i))); [ring|].
    rewrite E. ring.
Qed.

(** ** Bernstein polynomials *)
Lemma bernstein_sum p (x : T) : ssum (S p) (fun j => bernstein p j x) = s1.
Proof.
  unfold bernstein. rewrite <- (binomial_theorem x (s1 - x) p).
  replace (x + (s1 - x)) with (s1 : T) by ring. apply spow_1_l.
Qed.

Lemma bernstein_gt p j (x : T) : (p < j)%nat -> bernstein p j x = s0.
Proof. intros. unfold bernstein. rewrite binom_gt by lia. rewrite sf_ofN0. ring. Qed.

(** Recurrence used by de Casteljau's algorithm. *)
Lemma bernstein_rec_S p j (x : T) :
  bernstein (S p) (S j) x = (s1 - x) * bernstein p (S j) x + x * bernstein p j x.
Proof.
  destruct (Nat.lt_ge_cases p j).
  { rewrite !bernstein_gt by lia. ring. }
  unfold bernstein. rewrite binom_SS, sofN_add, spow_S.
  replace (S p - S j)%nat with (p - j)%nat by lia.
  destruct (Nat.eq_dec p j) as [->|].
  - rewrite (binom_gt j (S j)) by lia. rewrite sf_ofN0. ring.
  - replace (p - j)%nat with (S (p - S j)) by lia. rewrite spow_S. ring.
Qed.
Lemma bernstein_rec_0 p (x : T) : bernstein (S p) 0 x = (s1 - x) * bernstein p 0 x.
Proof.
  unfold bernstein. rewrite !binom_n_0, !Nat.sub_0_r, spow_S. ring.
Qed.
Lemma bernstein_0_0 (x : T) : bernstein 0 0 x = s1.
Proof. unfold bernstein. simpl. rewrite sofN_1. ring. Qed.

Lemma bernstein_at_0 p j : bernstein p j (s0 : T) = if (j =? 0)%nat then s1 else s0.
Proof.
  destruct j; simpl.
  - unfold bernstein. rewrite binom_n_0, sofN_1. simpl.
    replace (s1 - s0) with (s1 : T) by ring. rewrite spow_1_l. ring.
  - unfold bernstein. rewrite spow_0_l by lia. ring.
Qed.
Lemma bernstein_at_1 p j : (j <= p)%nat -> bernstein p j (s1 : T) = if (j =? p)%nat then s1 else s0.
Proof.
  intros H. unfold bernstein. replace (s1 - s1) with (s0 : T) by ring. rewrite spow_1_l.
  destruct (Nat.eqb_spec j p) as [->|].
  - rewrite binom_nn, Nat.sub_diag, sofN_1. simpl. ring.
  - rewrite spow_0_l by lia. ring.
Qed.

(** Product of two Bernstein polynomials. *)
Lemma bernstein_mul m n i j (x : T) :
  (i <= m)%nat -> (j <= n)%nat ->
  bernstein m i x * bernstein n j x =
  sofN (binom m i * binom n j) / sofN (binom (m + n) (i + j)) * bernstein (m + n) (i + j) x.
Proof.
  intros Hi Hj. unfold bernstein. rewrite sofN_mul, spow_add.
  replace (m + n - (i + j))%nat with ((m - i) + (n - j))%nat by lia. rewrite spow_add.
  field. apply sbinom_neq0. lia.
Qed.

(** Degree elevation: B_{j,p} = (1 - j/(p+1)) B_{j,p+1} + (j+1)/(p+1) B_{j+1,p+1}. *)
Lemma bernstein_elev p j (x : T) :
  (j <= p)%nat ->
  sofnat (S p) * bernstein p j x =
  sofnat (S p - j) * bernstein (S p) j x + sofnat (S j) * bernstein (S p) (S j) x.
Proof.
  intros H. unfold bernstein.
  pose proof (f_equal (sofN (S := T)) (binom_absorb p j)) as E1.
  pose proof (f_equal (sofN (S := T)) (binom_absorb2 p j H)) as E2.
  rewrite !sofN_mul in E1, E2. fold (sofnat (S := T) (S j)) in E1.
  fold (sofnat (S := T) (S p)) in E1, E2. fold (sofnat (S := T) (S p - j)) in E2.
  replace (S p - S j)%nat with (p - j)%nat by lia.
  replace (S p - j)%nat with (S (p - j)) in * by lia.
  rewrite !spow_S.
  transitivity ((sofnat (S p) * sofN (binom p j)) * (1 - x) * spow x j * spow (1 - x) (p - j)
     + (sofnat (S p) * sofN (binom p j)) * x * spow x j * spow (1 - x) (p - j)); [ring|].
  rewrite <- E2 at 1. rewrite <- E1. ring.
Qed.

End SSum.
