(** Claims about Base64 (C45-C49). *)
From Coq Require Import Arith Lia List ZArith NArith Bool Ascii ZifyN ZifyNat.
From Verif Require Import Prelude ModelBase64 SpecBase64 ProofBase64.
Import ListNotations.
Local Open Scope nat_scope.

Lemma c45_round_trip : forall (sz : nat) (v : list (list N)) (rest : list N),
  3 <= sz -> is_vector sz v -> is_bytes rest -> padding (sz * length v) <= length rest ->
  exists s, Encode sz v rest = Ok s /\ Decode sz s = Ok v.
Proof.
  intros sz v rest Hsz Hv Hr HR. destruct (Decode_Encode sz v rest ltac:(lia) Hv Hr HR) as (s & E & D).
  exists s. split; auto. rewrite D. rewrite Nat.div_small; [|pose proof (padding_lt (sz * length v)); lia].
  simpl. now rewrite app_nil_r.
Qed.

(** ** C46 *)
Lemma three_ind {A} (P : list A -> Prop) : P [] -> (forall a, P [a]) -> (forall a b, P [a; b]) ->
  (forall a b c t, P t -> P (a :: b :: c :: t)) -> forall l, P l.
Proof.
  intros H0 H1 H2 H3. assert (HH : forall l, P l /\ (forall a, P (a :: l)) /\ (forall a b, P (a :: b :: l))).
  { induction l as [|x l (I1 & I2 & I3)]; auto. }
  intros l. apply HH.
Qed.

Lemma rfc_nth l : length (rfc4648 l) = 4 * groups_of (length l) /\
  forall i, i < 4 * groups_of (length l) ->
    nth i (rfc4648 l) zero = if i <? 4 * groups_of (length l) - padding (length l) then raw_char l i else "="%char.
Proof.
  induction l as [|a|a b|a b c t (IH1 & IH2)] using three_ind.
  - split; [reflexivity|]. intros i Hi. simpl in Hi. lia.
  - split; [reflexivity|]. intros i Hi. change (4 * groups_of (length [a])) with 4 in *. change (padding (length [a])) with 2.
    destruct i as [|[|[|[|i]]]]; try lia; reflexivity.
  - split; [reflexivity|]. intros i Hi. change (4 * groups_of (length [a; b])) with 4 in *. change (padding (length [a; b])) with 1.
    destruct i as [|[|[|[|i]]]]; try lia; reflexivity.
  - assert (HP : padding (length (a :: b :: c :: t)) = padding (length t)).
    { unfold padding. simpl length. replace (S (S (S (length t))) mod 3) with (length t mod 3); [reflexivity|].
      replace (S (S (S (length t)))) with (length t + 1 * 3) by lia. now rewrite Nat.mod_add. }
    assert (HG : groups_of (length (a :: b :: c :: t)) = S (groups_of (length t))).
    { pose proof (groups_eq (length t)). pose proof (groups_eq (length (a :: b :: c :: t))). rewrite HP in *. simpl length in *. lia. }
    rewrite HP, HG. split; [simpl rfc4648; simpl length; lia|]. intros i Hi.
    pose proof (groups_eq (length t)) as HGt. pose proof (padding_lt (length t)) as HPt.
    destruct (Nat.lt_ge_cases i 4) as [H4|H4].
    + rewrite (proj2 (Nat.ltb_lt _ _)).
      * destruct i as [|[|[|[|i]]]]; try lia; reflexivity.
      * destruct (length t) eqn:El; [assert (padding 0 = 0) by reflexivity; lia|]. lia.
    + assert (exists j, i = 4 + j) as (j & ->) by (exists (i - 4); lia).
      change (nth (4 + j) (rfc4648 (a :: b :: c :: t)) zero) with (nth j (rfc4648 t) zero). rewrite IH2 by lia.
      replace (4 + j <? 4 * S (groups_of (length t)) - padding (length t)) with (j <? 4 * groups_of (length t) - padding (length t)).
      * destruct (Nat.ltb_spec j (4 * groups_of (length t) - padding (length t))); [|reflexivity].
        unfold raw_char. replace ((4 + j) / 4) with (S (j / 4)) by divlia. replace ((4 + j) mod 4) with (j mod 4) by divlia.
        reflexivity.
      * destruct (length t) eqn:El.
        -- assert (padding 0 = 0) by reflexivity. assert (groups_of 0 = 0) by reflexivity. lia.
        -- destruct (Nat.ltb_spec j (4 * groups_of (S n) - padding (S n))),
             (Nat.ltb_spec (4 + j) (4 * S (groups_of (S n)) - padding (S n))); auto; lia.
Qed.

Lemma c46_encoding_partial : forall (sz : nat) (v : list (list N)) (rest : list N),
  is_vector sz v -> is_bytes rest -> padding (sz * length v) <= length rest ->
  let n := sz * length v in
  exists s, Encode sz v rest = Ok s /\ length s = 4 * ((n + 2) / 3) /\
    (forall i, i < length s - padding n -> exists x, (x < 64)%N /\ nth i s zero = b64_char x) /\
    (forall i, length s - padding n <= i < length s -> nth i s zero = "="%char) /\
    firstn (n / 3 * 4) s = firstn (n / 3 * 4) (rfc4648 (concat v)) /\
    (n mod 3 = 0 \/ (forall i, i < padding n -> nth i rest 0%N = 0%N) -> s = rfc4648 (concat v)).
Proof.
  intros sz v rest Hv Hr HR n. destruct (Encode_ok sz v rest Hv Hr HR) as (s & E & HL & HN). fold n in HL, HN, HR.
  exists s. split; auto. pose proof (groups_eq n) as HG. pose proof (padding_lt n) as HP.
  assert (Hlen : length (concat v) = n) by (apply vector_length; auto).
  destruct (rfc_nth (concat v)) as (RL & RN). rewrite Hlen in RL, RN.
  assert (Hsame : forall i, i < 4 * groups_of n -> (i < n / 3 * 4 \/ n mod 3 = 0 \/ (forall j, j < padding n -> nth j rest 0%N = 0%N)) ->
    nth i s zero = nth i (rfc4648 (concat v)) zero).
  { intros i Hi HC. rewrite HN, RN by auto. destruct (Nat.ltb_spec i (4 * groups_of n - padding n)); [|reflexivity].
    unfold raw_char. assert (HX : forall j, j < groups_of n * 3 -> (j < n \/ (forall j, j < padding n -> nth j rest 0%N = 0%N)) ->
      nth j (concat v ++ rest) 0%N = nth j (concat v) 0%N).
    { intros j Hj [Hjn|HZ]; [apply app_nth1; lia|]. destruct (Nat.lt_ge_cases j n); [apply app_nth1; lia|].
      rewrite app_nth2 by lia. rewrite HZ by lia. symmetry. apply nth_overflow. lia. }
    assert (HD : i / 4 < groups_of n) by divlia.
    destruct HC as [HC|[HC|HC]].
    - assert (i / 4 < n / 3) by divlia. rewrite !HX; try lia; auto; left; divlia.
    - apply padding_0 in HC. rewrite !HX; try lia; auto; left; lia.
    - rewrite !HX; try lia; auto. }
  split; [rewrite HL; f_equal; unfold padding in HG; destruct (n mod 3) as [|[|m]] eqn:Em; divlia|].
  split.
  { intros i Hi. rewrite HN by lia. rewrite (proj2 (Nat.ltb_lt _ _)) by lia. eexists. split; [|reflexivity]. apply sextet_lt. }
  split.
  { intros i Hi. rewrite HN by lia. rewrite (proj2 (Nat.ltb_ge _ _)) by lia. reflexivity. }
  split.
  - assert (HF : n / 3 * 4 <= 4 * groups_of n) by divlia.
    apply (list_ext zero); [rewrite !firstn_length; lia|]. intros i Hi. rewrite firstn_length in Hi.
    rewrite !nth_firstn_lt by lia. apply Hsame; [lia|]. left. lia.
  - intros HC. apply (list_ext zero); [lia|]. intros i Hi. apply Hsame; [lia|]. right. exact HC.
Qed.

Lemma c46_encoding_refuted : exists (sz : nat) (v : list (list N)) (rest : list N) (s : list ascii),
  is_vector sz v /\ is_bytes rest /\ Encode sz v rest = Ok s /\ s <> rfc4648 (concat v).
Proof.
  exists 4, [[1; 2; 3; 4]]%N, [255; 255]%N. eexists. split; [repeat constructor|]. split; [repeat constructor|].
  split; [vm_compute; reflexivity|]. vm_compute. discriminate.
Qed.

(** ** C47 *)
Lemma c47_reads_partial : forall (sz : nat) (v : list (list N)),
  is_vector sz v ->
  (sz * length v mod 3 = 0 -> exists s, Encode sz v [] = Ok s) /\
  (sz * length v mod 3 <> 0 -> Encode sz v [] = UB).
Proof.
  intros sz v Hv. set (n := sz * length v). split; intros H.
  - destruct (Encode_ok sz v [] Hv ltac:(constructor)) as (s & E & _); [|eauto].
    fold n. rewrite (proj2 (padding_0 n) H). simpl. lia.
  - unfold Encode. cbv zeta. fold n. rewrite padding_eq. fold (groups_of n). rewrite app_nil_r.
    pose proof (groups_eq n) as HG. pose proof (padding_lt n) as HP. pose proof (padding_0 n) as HP0.
    assert (Hlen : length (concat v) = n) by (apply vector_length; auto).
    assert (Hb : is_bytes (concat v)) by (eapply vector_bytes; eauto).
    assert (Hn0 : n <> 0) by (intros E; apply H; rewrite E; reflexivity).
    destruct (groups_of n) as [|g] eqn:Eg; [lia|]. rewrite for_up_S.
    edestruct (for_up_inv (fun (_ : nat) (s : list ascii) => length s = S g * 4)) as (s & E & HL).
    3:{ rewrite E. cbn [bind]. unfold encode_group. cbv zeta. change (0 + g) with g.
        rewrite (proj2 (Nat.ltb_lt (g * 3) n)) by lia. rewrite (get_ok 0%N) by lia. cbn [bind].
        destruct (Nat.lt_ge_cases (g * 3 + 1) n) as [H1|H1].
        - rewrite (get_ok 0%N (concat v) (g * 3 + 1)) by lia. cbn [bind].
          rewrite (get_ub (concat v) (g * 3 + 2)) by lia. reflexivity.
        - rewrite (get_ub (concat v) (g * 3 + 1)) by lia. reflexivity. }
    + apply length_resize.
    + intros i s Hi HL. cbv beta.
      destruct (encode_group_ok (concat v) n i s) as (s' & E & HL' & _); auto; try lia.
      exists s'. split; auto. lia.
Qed.

Lemma c47_reads_refuted : exists (sz : nat) (v : list (list N)), is_vector sz v /\ Encode sz v [] = UB.
Proof. exists 4, [[1; 2; 3; 4]]%N. split; [repeat constructor|reflexivity]. Qed.

(** ** C48 *)
Lemma c48_small_partial : forall (sz : nat) (v : list (list N)) (rest : list N),
  0 < sz -> is_vector sz v -> is_bytes rest -> padding (sz * length v) <= length rest ->
  exists s, Encode sz v rest = Ok s /\
    Decode sz s = Ok (v ++ repeat (repeat 0%N sz) (padding (sz * length v) / sz)) /\
    (Decode sz s = Ok v <-> padding (sz * length v) < sz).
Proof.
  intros sz v rest Hsz Hv Hr HR. destruct (Decode_Encode sz v rest Hsz Hv Hr HR) as (s & E & D).
  exists s. split; auto. split; auto. rewrite D. split.
  - intros H. injection H as H. apply (f_equal (@length _)) in H. rewrite app_length, repeat_length in H.
    destruct (Nat.lt_ge_cases (padding (sz * length v)) sz); auto.
    pose proof (Nat.div_str_pos (padding (sz * length v)) sz ltac:(lia)). lia.
  - intros H. rewrite Nat.div_small by auto. simpl. now rewrite app_nil_r.
Qed.

Lemma c48_small_refuted :
  (exists (v : list (list N)) (s : list ascii), is_vector 1 v /\ Encode 1 v [0; 0]%N = Ok s /\ Decode 1 s <> Ok v) /\
  (exists (v : list (list N)) (s : list ascii), is_vector 2 v /\ Encode 2 v [0; 0]%N = Ok s /\ Decode 2 s <> Ok v).
Proof.
  split.
  - exists [[7]]%N. destruct (c48_small_partial 1 [[7]]%N [0; 0]%N) as (s & E & D & I); try (repeat constructor).
    exists s. split; [repeat constructor|]. split; auto. intros H. apply I in H. vm_compute in H. lia.
  - exists [[7; 1]; [8; 1]]%N.
    destruct (c48_small_partial 2 [[7; 1]; [8; 1]]%N [0; 0]%N) as (s & E & D & I); try (repeat constructor).
    exists s. split; [repeat constructor|]. split; auto. intros H. apply I in H. vm_compute in H. lia.
Qed.

(** ** C49 *)
Lemma Encode_points_ok dim sz pts rest : Forall (fun p => length p = dim) pts ->
  Encode_points dim sz pts rest = Encode sz (concat pts) rest.
Proof.
  intros HF. unfold Encode_points.
  assert (HL : length (concat pts) = dim * length pts).
  { clear rest. induction HF; simpl; [lia|]. rewrite app_length. lia. }
  assert (Hn : forall i j, i < length pts -> j < dim ->
    nth j (nth i pts []) [] = nth (i * dim + j) (concat pts) []).
  { clear HL rest. induction HF as [|p pts Hp HF IH]; intros i j Hi Hj; [simpl in Hi; lia|]. destruct i; simpl.
    - rewrite app_nth1 by lia. reflexivity.
    - rewrite app_nth2 by lia. rewrite Hp. replace (dim + i * dim + j - dim) with (i * dim + j) by lia. apply IH; simpl in Hi; lia. }
  edestruct (for_up_inv (fun i flat => length flat = dim * length pts /\
    forall k, k < i * dim -> nth k flat [] = nth k (concat pts) [])) as (flat & E & HLf & HN).
  3:{ rewrite E. cbn [bind]. f_equal. apply (list_ext []); [lia|]. intros k Hk. apply HN. simpl. lia. }
  - split; [apply repeat_length|]. lia.
  - intros i flat Hi (HLf & HN). cbv beta.
    edestruct (for_up_inv (fun j flat => length flat = dim * length pts /\
      forall k, k < i * dim + j -> nth k flat [] = nth k (concat pts) [])) as (flat' & E & HLf' & HN').
    3:{ exists flat'. split; [exact E|]. split; auto. intros k Hk. apply HN'. simpl. lia. }
    + split; auto. intros k Hk. apply HN. lia.
    + intros j flat' Hj (HLf' & HN'). cbv beta. rewrite (get_ok []) by lia. cbn [bind].
      rewrite Forall_forall in HF. rewrite (get_ok []) by (rewrite HF; [lia|apply nth_In; lia]). cbn [bind].
      rewrite set_ok by nia. eexists. split; [reflexivity|]. split; [rewrite length_upd; auto|].
      intros k Hk. rewrite nth_upd by nia. destruct (Nat.eqb_spec k (i * dim + j)); [subst k; apply Hn; lia|apply HN'; lia].
Qed.

Lemma Decode_points_ok dim sz s pts : 1 <= dim -> Forall (fun p => length p = dim) pts ->
  Decode sz s = Ok (concat pts) -> Decode_points dim sz s = Ok pts.
Proof.
  intros Hd HF D.
  assert (HL : length (concat pts) = dim * length pts).
  { clear - HF. induction HF; simpl; [lia|]. rewrite app_length. lia. }
  unfold Decode_points. rewrite D. cbn [bind]. cbv zeta. rewrite HL.
  replace (dim * length pts mod dim) with 0 by (rewrite Nat.mul_comm, Nat.mod_mul; lia). cbn [assert_ Nat.eqb bind].
  replace (dim * length pts / dim) with (length pts) by (rewrite Nat.mul_comm, Nat.div_mul; lia).
  assert (Hn : forall i j, i < length pts -> j < dim ->
    nth (i * dim + j) (concat pts) [] = nth j (nth i pts []) []).
  { clear - HF. induction HF as [|p pts Hp HF IH]; intros i j Hi Hj; [simpl in Hi; lia|]. destruct i; simpl.
    - rewrite app_nth1 by lia. reflexivity.
    - rewrite app_nth2 by lia. rewrite Hp. replace (dim + i * dim + j - dim) with (i * dim + j) by lia. apply IH; simpl in Hi; lia. }
  assert (HFn : forall i, i < length pts -> length (nth i pts []) = dim).
  { intros i Hi. rewrite Forall_forall in HF. apply HF, nth_In. auto. }
  edestruct (for_up_inv (fun i out => length out = length pts /\ (forall k, k < length pts -> length (nth k out []) = dim) /\
    forall k, k < i -> nth k out [] = nth k pts [])) as (out & Eo & HLo & HLk & HN).
  3:{ rewrite Eo. f_equal. apply (list_ext []); auto. intros i Hi. apply HN. lia. }
  - split; [apply repeat_length|]. split; [|lia]. intros k Hk. rewrite nth_repeat_lt by auto. apply repeat_length.
  - intros i out Hi (HLo & HLk & HN). cbv beta.
    edestruct (for_up_inv (fun j out => length out = length pts /\ (forall k, k < length pts -> length (nth k out []) = dim) /\
      (forall k, k < i -> nth k out [] = nth k pts []) /\
      forall k, k < j -> nth k (nth i out []) [] = nth k (nth i pts []) [])) as (out' & Eo' & HLo' & HLk' & HN' & HM').
    3:{ exists out'. split; [exact Eo'|]. split; auto. split; auto. intros k Hk.
        destruct (Nat.eq_dec k i) as [->|]; [|apply HN'; lia].
        apply (list_ext []); [rewrite HLk', HFn by lia; auto|]. intros m Hm. rewrite HLk' in Hm by lia. apply HM'. lia. }
    + split; auto. split; auto. split; auto. lia.
    + intros j out' Hj (HLo' & HLk' & HN' & HM'). cbv beta.
      rewrite (get_ok []) by nia. cbn [bind]. rewrite (get_ok []) by lia. cbn [bind].
      rewrite set_ok by (rewrite HLk'; lia). cbn [bind]. rewrite set_ok by lia.
      eexists. split; [reflexivity|]. rewrite length_upd. split; auto.
      assert (HU : forall k, nth k (upd_list out' i (upd_list (nth i out' []) j (nth (i * dim + j) (concat pts) []))) [] =
        if k =? i then upd_list (nth i out' []) j (nth (i * dim + j) (concat pts) []) else nth k out' [])
        by (intros k; apply nth_upd; lia).
      split; [|split].
      * intros k Hk. rewrite HU. destruct (Nat.eqb_spec k i); [rewrite length_upd; apply HLk'; lia|apply HLk'; auto].
      * intros k Hk. rewrite HU. destruct (Nat.eqb_spec k i); [lia|apply HN'; auto].
      * intros k Hk. rewrite HU, Nat.eqb_refl. rewrite nth_upd by (rewrite HLk'; lia). rewrite Hn by lia.
        destruct (Nat.eqb_spec k j); [subst; auto|apply HM'; lia].
Qed.
Lemma c49_points : forall (dim sz : nat) (pts : list (list (list N))) (rest : list N),
  1 <= dim -> 3 <= sz -> is_points dim sz pts -> is_bytes rest -> padding (sz * (dim * length pts)) <= length rest ->
  exists s, Encode_points dim sz pts rest = Ok s /\ Decode_points dim sz s = Ok pts.
Proof.
  intros dim sz pts rest Hd Hsz HP Hr HR.
  assert (HF : Forall (fun p => length p = dim) pts) by (eapply Forall_impl; [|exact HP]; simpl; tauto).
  assert (HL : length (concat pts) = dim * length pts).
  { clear - HF. induction HF; simpl; [lia|]. rewrite app_length. lia. }
  assert (Hv : is_vector sz (concat pts)).
  { clear - HP. induction HP; simpl; [constructor|]. apply Forall_app. split; auto. apply H. }
  rewrite Encode_points_ok by auto.
  destruct (c45_round_trip sz (concat pts) rest Hsz Hv Hr) as (s & E & D); [rewrite HL; auto|].
  exists s. split; auto. apply Decode_points_ok; auto.
Qed.
(** Data that do not fill the last point. *)
Lemma chunks {A} dim n : forall data : list A, length data = n * dim ->
  exists pts, concat pts = data /\ length pts = n /\ Forall (fun p => length p = dim) pts.
Proof.
  induction n as [|n IH]; intros data HL.
  - exists []. destruct data; [auto|discriminate].
  - destruct (IH (skipn dim data)) as (pts & E & L & F); [rewrite skipn_length; lia|].
    exists (firstn dim data :: pts). cbn [concat length]. rewrite E, firstn_skipn. split; auto. split; auto.
    constructor; auto. rewrite firstn_length. lia.
Qed.
Lemma c49_decode : forall (dim sz : nat) (s : list ascii) (data : list (list N)),
  1 <= dim -> Decode sz s = Ok data ->
  (length data mod dim = 0 -> exists pts, Decode_points dim sz s = Ok pts /\ concat pts = data /\
     Forall (fun p => length p = dim) pts) /\
  (length data mod dim <> 0 -> Decode_points dim sz s = AssertFail).
Proof.
  intros dim sz s data Hd D. split; intros H.
  - assert (HL : length data = length data / dim * dim) by (pose proof (Nat.div_mod (length data) dim); lia).
    destruct (chunks dim _ data HL) as (pts & E & _ & F). exists pts. split; auto. apply Decode_points_ok; auto. congruence.
  - unfold Decode_points. rewrite D. cbn [bind]. cbv zeta. destruct (Nat.eqb_spec (length data mod dim) 0); [congruence|]. reflexivity.
Qed.
