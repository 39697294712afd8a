(** C68: decoding arbitrary text. *)
From Coq Require Import Arith Lia List ZArith NArith Bool Ascii String ZifyN ZifyNat.
From Verif Require Import Prelude ModelBase64 SpecBase64 ProofBase64 ClaimsJ.
Import ListNotations.
Local Open Scope nat_scope.
Local Notation length := List.length.
Local Notation concat := List.concat.

(** ** Characters *)
(** What the code keeps in its buffer for a character. *)
Definition slot (c : ascii) : N := if Ascii.eqb c "="%char then 255%N else char_value c.

Lemma ascii_ind128 (P : ascii -> bool) : forallb P (map ascii_of_nat (seq 0 128)) = true ->
  forall c, nat_of_ascii c < 128 -> P c = true.
Proof.
  intros H c Hc. rewrite forallb_forall in H. apply H. rewrite <- (ascii_nat_embedding c).
  apply in_map, in_seq. lia.
Qed.
Lemma slot_ok c : nat_of_ascii c < 128 ->
  (if Ascii.eqb c "=" then Ok 255%N else decode_char the_table c) = Ok (slot c).
Proof.
  intros H. assert (E : match (if Ascii.eqb c "=" then Ok 255%N else decode_char the_table c) with
    | Ok x => N.eqb x (slot c) | _ => false end = true).
  { revert c H. apply (ascii_ind128 (fun c => match (if Ascii.eqb c "=" then Ok 255%N else decode_char the_table c) with
      | Ok x => N.eqb x (slot c) | _ => false end)). vm_compute. reflexivity. }
  destruct (if Ascii.eqb c "=" then _ else _); try discriminate. apply N.eqb_eq in E. congruence.
Qed.
Lemma char_value_lt c : (char_value c < 64)%N.
Proof.
  unfold char_value. destruct (Ascii.eqb c "="); [lia|]. destruct (find _ _) eqn:E; [|lia].
  apply find_some in E. destruct E as (E & _). apply in_seq in E. lia.
Qed.
Lemma slot_255 c : N.eqb (slot c) 255 = Ascii.eqb c "=".
Proof.
  unfold slot. destruct (Ascii.eqb c "="); [reflexivity|]. apply N.eqb_neq. pose proof (char_value_lt c). lia.
Qed.
Lemma slot_mod c m : (m <= 6)%N -> (slot c mod 2 ^ m = char_value c mod 2 ^ m)%N.
Proof.
  intros H. unfold slot. destruct (Ascii.eqb c "=") eqn:E; [|reflexivity].
  unfold char_value. rewrite E.
  assert (m = 0 \/ m = 1 \/ m = 2 \/ m = 3 \/ m = 4 \/ m = 5 \/ m = 6)%N as HM by lia.
  destruct HM as [-> | [-> | [-> | [-> | [-> | [-> | ->]]]]]]; reflexivity.
Qed.

Section Bits.
Local Open Scope N_scope.
Lemma byte0 x y : Ascii.eqb y "=" = false ->
  (N.shiftl (N.land (slot x) 0x3f) 2 + N.shiftr (N.land (slot y) 0x30) 4) mod 256 =
  ((char_value x * 64 + char_value y) / 16) mod 256.
Proof.
  intros E. rewrite (land_shiftl _ _ 6), (land_shiftr _ _ 2) by reflexivity. rewrite slot_mod by lia.
  unfold slot. rewrite E. pose proof (char_value_lt x). pose proof (char_value_lt y).
  change (2 ^ 2) with 4. change (2 ^ 4) with 16. change (2 ^ 6) with 64. divlia.
Qed.
Lemma byte1 x y : Ascii.eqb y "=" = false ->
  (N.shiftl (N.land (slot x) 0x0f) 4 + N.shiftr (N.land (slot y) 0x3c) 2) mod 256 =
  ((char_value x * 64 + char_value y) / 4) mod 256.
Proof.
  intros E. rewrite (land_shiftl _ _ 4), (land_shiftr _ _ 4) by reflexivity. rewrite slot_mod by lia.
  unfold slot. rewrite E. pose proof (char_value_lt x). pose proof (char_value_lt y).
  change (2 ^ 2) with 4. change (2 ^ 4) with 16. divlia.
Qed.
Lemma byte2 x y : Ascii.eqb y "=" = false ->
  (N.shiftl (N.land (slot x) 0x03) 6 + N.shiftr (N.land (slot y) 0x3f) 0) mod 256 =
  ((char_value x * 64 + char_value y) / 1) mod 256.
Proof.
  intros E. rewrite (land_shiftl _ _ 2), (land_shiftr _ _ 6) by reflexivity. rewrite slot_mod by lia.
  unfold slot. rewrite E. pose proof (char_value_lt x). pose proof (char_value_lt y).
  change (2 ^ 2) with 4. change (2 ^ 6) with 64. change (2 ^ 0) with 1. divlia.
Qed.
End Bits.

Lemma nth_skipn {A} (d : A) l n i : nth i (skipn n l) d = nth (n + i) l d.
Proof. revert l; induction n; intros l; [reflexivity|]. destruct l; [destruct i; reflexivity|]. apply IHn. Qed.

(** ** One group *)
Definition group_ascii (s : list ascii) (g : nat) : bool :=
  forallb (fun k => nat_of_ascii (nth (g * 4 + k) s zero) <? 128) [0; 1; 2; 3].
Definition group_fits (s : list ascii) (n g : nat) : bool :=
  forallb (fun k => Ascii.eqb (nth (g * 4 + k + 1) s zero) "="%char || (g * 3 + k <? n)) [0; 1; 2].

Lemma opt_set (e : bool) (out : list N) i x :
  (if e then Ok out else set out i x) =
  if e || (i <? length out) then Ok (if e then out else upd_list out i x) else UB.
Proof.
  destruct e; reflexivity.
Qed.

Lemma decode_group_any s out g : g * 4 + 4 <= length s ->
  (group_ascii s g && group_fits s (length out) g = true ->
     exists out', decode_group the_table s g out = Ok out' /\ length out' = length out /\
       forall i, nth i out' 0%N =
         if (i / 3 =? g) && negb (Ascii.eqb (nth (4 * (i / 3) + i mod 3 + 1) s zero) "="%char) then decoded_byte s i
         else nth i out 0%N) /\
  (group_ascii s g && group_fits s (length out) g = false -> decode_group the_table s g out = UB).
Proof.
  intros HL. unfold decode_group. cbv zeta. unfold group_ascii. cbn [forallb].
  cbn [mapM]. rewrite !(get_ok zero s) by lia. cbn [bind].
  set (c0 := nth (g * 4 + 0) s zero). set (c1 := nth (g * 4 + 1) s zero).
  set (c2 := nth (g * 4 + 2) s zero). set (c3 := nth (g * 4 + 3) s zero).
  assert (HU : forall c, 128 <= nat_of_ascii c -> (if Ascii.eqb c "=" then Ok 255%N else decode_char the_table c) = UB).
  { intros c Hc. destruct (Ascii.eqb_spec c "="); [subst c; vm_compute in Hc; lia|].
    unfold decode_char. rewrite (proj2 (Nat.ltb_ge _ _)) by lia. reflexivity. }
  destruct (Nat.ltb_spec (nat_of_ascii c0) 128) as [H0|H0]; [rewrite (slot_ok c0) by auto|
    rewrite (HU c0) by auto; split; [discriminate|reflexivity]].
  destruct (Nat.ltb_spec (nat_of_ascii c1) 128) as [H1|H1]; [rewrite (slot_ok c1) by auto|
    rewrite (HU c1) by auto; split; [discriminate|reflexivity]].
  destruct (Nat.ltb_spec (nat_of_ascii c2) 128) as [H2|H2]; [rewrite (slot_ok c2) by auto|
    rewrite (HU c2) by auto; split; [discriminate|reflexivity]].
  destruct (Nat.ltb_spec (nat_of_ascii c3) 128) as [H3|H3]; [rewrite (slot_ok c3) by auto|
    rewrite (HU c3) by auto; split; [discriminate|reflexivity]].
  cbn [bind andb]. unfold get. cbn [nth_error bind]. rewrite !slot_255.
  assert (HF : group_fits s (length out) g =
    (Ascii.eqb c1 "=" || (g * 3 <? length out)) && ((Ascii.eqb c2 "=" || (g * 3 + 1 <? length out)) &&
    (Ascii.eqb c3 "=" || (g * 3 + 2 <? length out)))).
  { unfold group_fits. cbn [forallb]. unfold c1, c2, c3.
    replace (g * 4 + 0 + 1) with (g * 4 + 1) by lia. replace (g * 4 + 1 + 1) with (g * 4 + 2) by lia.
    replace (g * 4 + 2 + 1) with (g * 4 + 3) by lia. replace (g * 3 + 0) with (g * 3) by lia. now rewrite andb_true_r. }
  rewrite HF. clear HF.
  rewrite opt_set. destruct (Ascii.eqb c1 "=" || (g * 3 <? length out)) eqn:F1; [|split; [discriminate|reflexivity]].
  cbn [bind andb]. rewrite opt_set.
  assert (L1 : length (if Ascii.eqb c1 "=" then out else upd_list out (g * 3) ((N.shiftl (N.land (slot c0) 63) 2 + N.shiftr (N.land (slot c1) 48) 4) mod 256)%N) = length out)
    by (destruct (Ascii.eqb c1 "="); rewrite ?length_upd; auto).
  rewrite L1. destruct (Ascii.eqb c2 "=" || (g * 3 + 1 <? length out)) eqn:F2; [|split; [discriminate|reflexivity]].
  cbn [bind andb]. rewrite opt_set.
  match goal with |- context[length ?l] => match l with (if Ascii.eqb c2 _ then _ else _) => assert (L2 : length l = length out)
    by (destruct (Ascii.eqb c2 "="); rewrite ?length_upd; auto) end end.
  rewrite L2. destruct (Ascii.eqb c3 "=" || (g * 3 + 2 <? length out)) eqn:F3; [|split; [discriminate|reflexivity]].
  split; [intros _|discriminate]. eexists. split; [reflexivity|].
  split; [destruct (Ascii.eqb c3 "="); rewrite ?length_upd; auto|].
  intros i.
  assert (HX : forall (e : bool) l j x, e || (j <? length out) = true -> length l = length out ->
     nth i (if e then l else upd_list l j x) 0%N = if (i =? j) && negb e then x else nth i l 0%N).
  { intros e l j x He HLl. destruct e; [now rewrite andb_false_r|]. cbn [orb negb] in *. rewrite andb_true_r.
    apply Nat.ltb_lt in He. apply nth_upd. lia. }
  rewrite HX by auto. rewrite HX by auto. rewrite HX by auto.
  destruct (Nat.eqb_spec (i / 3) g) as [Eg|Eg].
  - assert (Hi : i = g * 3 + i mod 3) by divlia. pose proof (Nat.mod_upper_bound i 3 ltac:(lia)) as Hm.
    unfold decoded_byte. rewrite Eg. cbv zeta.
    destruct (i mod 3) as [|[|[|m]]]; try lia.
    + replace (4 * g + 0 + 1) with (g * 4 + 1) by lia. replace (4 * g + 0) with (g * 4 + 0) by lia. fold c0 c1.
      rewrite (proj2 (Nat.eqb_neq i (g * 3 + 2))), (proj2 (Nat.eqb_neq i (g * 3 + 1))), (proj2 (Nat.eqb_eq i (g * 3))) by lia.
      cbn [andb]. destruct (Ascii.eqb c1 "=") eqn:E1; [reflexivity|]. cbn [negb]. now rewrite byte0.
    + replace (4 * g + 1 + 1) with (g * 4 + 2) by lia. replace (4 * g + 1) with (g * 4 + 1) by lia. fold c1 c2.
      rewrite (proj2 (Nat.eqb_neq i (g * 3 + 2))), (proj2 (Nat.eqb_eq i (g * 3 + 1))), (proj2 (Nat.eqb_neq i (g * 3))) by lia.
      cbn [andb]. destruct (Ascii.eqb c2 "=") eqn:E2; [reflexivity|]. cbn [negb]. now rewrite byte1.
    + replace (4 * g + 2 + 1) with (g * 4 + 3) by lia. replace (4 * g + 2) with (g * 4 + 2) by lia. fold c2 c3.
      rewrite (proj2 (Nat.eqb_eq i (g * 3 + 2))), (proj2 (Nat.eqb_neq i (g * 3 + 1))), (proj2 (Nat.eqb_neq i (g * 3))) by lia.
      cbn [andb]. destruct (Ascii.eqb c3 "=") eqn:E3; [reflexivity|]. cbn [negb]. now rewrite byte2.
  - rewrite (proj2 (Nat.eqb_neq i (g * 3 + 2))), (proj2 (Nat.eqb_neq i (g * 3 + 1))), (proj2 (Nat.eqb_neq i (g * 3))) by divlia.
    reflexivity.
Qed.

Lemma for_up_ub {A} (P : A -> Prop) (ok : nat -> bool) (f : nat -> A -> res A) n lo a :
  (forall i x, lo <= i < lo + n -> P x -> (ok i = true -> exists x', f i x = Ok x' /\ P x') /\ (ok i = false -> f i x = UB)) ->
  P a -> (exists i, lo <= i < lo + n /\ ok i = false) -> for_up lo n f a = UB.
Proof.
  revert lo a. induction n; intros lo a HS HP (i & Hi & Ho); [lia|]. cbn [for_up].
  destruct (HS lo a ltac:(lia) HP) as (S1 & S2). destruct (ok lo) eqn:E.
  - destruct (S1 eq_refl) as (x & -> & HPx). cbn [bind]. apply IHn; auto.
    + intros j y Hj. apply HS. lia.
    + exists i. split; auto. destruct (Nat.eq_dec i lo); [congruence|lia].
  - now rewrite S2.
Qed.

Lemma groups_ok (s : list ascii) n : length s mod 4 = 0 ->
  (is_ascii s /\ fits s n <-> forall g, g < length s / 4 -> group_ascii s g && group_fits s n g = true).
Proof.
  intros HM. split.
  - intros (HA & HF) g Hg. apply andb_true_iff. split; apply forallb_forall; intros k Hk; simpl in Hk.
    + apply Nat.ltb_lt. unfold is_ascii in HA. rewrite Forall_forall in HA. apply HA, nth_In. divlia.
    + destruct (Ascii.eqb_spec (nth (g * 4 + k + 1) s zero) "="); [reflexivity|]. apply Nat.ltb_lt. apply HF;
      replace ((g * 3 + k) / 3) with g by divlia; replace ((g * 3 + k) mod 3) with k by divlia; [divlia|].
      now replace (4 * g + k + 1) with (g * 4 + k + 1) by lia.
  - intros H. split.
    + apply Forall_forall. intros c Hc. apply (In_nth _ _ zero) in Hc. destruct Hc as (i & Hi & <-).
      specialize (H (i / 4) ltac:(divlia)). apply andb_true_iff in H. destruct H as (H & _).
      unfold group_ascii in H. rewrite forallb_forall in H. specialize (H (i mod 4)).
      replace (i / 4 * 4 + i mod 4) with i in H by divlia. apply Nat.ltb_lt, H.
      pose proof (Nat.mod_upper_bound i 4 ltac:(lia)). destruct (i mod 4) as [|[|[|[|m]]]]; simpl; auto; lia.
    + intros i Hi HE. specialize (H (i / 3) ltac:(divlia)). apply andb_true_iff in H. destruct H as (_ & H).
      unfold group_fits in H. rewrite forallb_forall in H. specialize (H (i mod 3)).
      replace (i / 3 * 4 + i mod 3 + 1) with (4 * (i / 3) + i mod 3 + 1) in H by lia.
      replace (i / 3 * 3 + i mod 3) with i in H by divlia.
      destruct (Ascii.eqb_spec (nth (4 * (i / 3) + i mod 3 + 1) s zero) "="); [contradiction|].
      apply Nat.ltb_lt, H. pose proof (Nat.mod_upper_bound i 3 ltac:(lia)).
      destruct (i mod 3) as [|[|[|m]]]; simpl; auto; lia.
Qed.

Lemma decode_dich (s : list ascii) n : length s mod 4 = 0 ->
  (is_ascii s /\ fits s n) \/ (exists g, g < length s / 4 /\ group_ascii s g && group_fits s n g = false).
Proof.
  intros HM. rewrite groups_ok by auto.
  generalize (length s / 4). induction n0 as [|m IH]; [left; lia|].
  destruct IH as [IH|(g & Hg & E)]; [|right; exists g; split; auto].
  destruct (group_ascii s m && group_fits s n m) eqn:E; [left|right; exists m; auto].
  intros g Hg. destruct (Nat.eq_dec g m); [now subst|]. apply IH. lia.
Qed.

Lemma c68_assert : forall (sz : nat) (s : list ascii), length s mod 4 <> 0 -> Decode sz s = AssertFail.
Proof.
  intros sz s H. unfold Decode. rewrite (proj2 (Nat.eqb_neq _ _) H). reflexivity.
Qed.

Lemma c68_decode_partial : forall (sz : nat) (s : list ascii), 0 < sz -> length s mod 4 = 0 ->
  let n := length s / 4 * 3 / sz in
  (is_ascii s /\ fits s (n * sz) -> exists v, Decode sz s = Ok v /\ length v = n /\ is_vector sz v /\
     forall j k, j < n -> k < sz -> nth k (nth j v []) 0%N = decoded_byte s (j * sz + k)) /\
  (~ (is_ascii s /\ fits s (n * sz)) -> Decode sz s = UB).
Proof.
  intros sz s Hsz HM n. unfold Decode. rewrite HM. cbn [Nat.eqb assert_ bind]. rewrite reverse_table_ok. cbn [bind].
  cbv zeta. fold n. split.
  - intros HF.
    pose proof (proj1 (groups_ok s (n * sz) HM) HF) as HG.
    edestruct (for_up_inv (fun g out => length out = n * sz /\
      forall i, nth i out 0%N = if i / 3 <? g then decoded_byte s i else 0%N)) as (out & E & HL & HN).
    3:{ rewrite E. cbn [bind]. eexists. split; [reflexivity|]. split; [apply length_entries|].
        assert (HB : forall j k, j < n -> k < sz -> nth k (nth j (entries_of sz n out) []) 0%N = nth (j * sz + k) out 0%N).
        { intros j k Hj Hk. unfold entries_of. rewrite (nth_map_seq _ _ _ []) by auto. rewrite nth_firstn_lt by auto.
          rewrite nth_skipn. reflexivity. }
        assert (HI : forall j k, j < n -> k < sz -> (j * sz + k) / 3 < length s / 4).
        { intros j k Hj Hk. assert (n * sz <= length s / 4 * 3) by (unfold n; rewrite Nat.mul_comm; apply Nat.mul_div_le; lia).
          assert (j * sz + k < n * sz) by nia. divlia. }
        split.
        - apply Forall_forall. intros e He. apply (In_nth _ _ []) in He. destruct He as (j & Hj & <-).
          rewrite length_entries in Hj. assert (HLe : length (nth j (entries_of sz n out) []) = sz).
          { unfold entries_of. rewrite (nth_map_seq _ _ _ []) by auto. rewrite firstn_length, skipn_length, HL. nia. }
          split; auto. apply Forall_forall. intros x Hx. apply (In_nth _ _ 0%N) in Hx. destruct Hx as (k & Hk & <-).
          rewrite HLe in Hk. rewrite HB, HN by auto. destruct (_ <? _); [|lia].
          unfold decoded_byte. cbv zeta. destruct (Ascii.eqb _ _); [lia|]. apply N.mod_lt. discriminate.
        - intros j k Hj Hk. rewrite HB, HN by auto. rewrite (proj2 (Nat.ltb_lt _ _)); [reflexivity|]. apply HI; auto. }
    + cbv beta. split; [apply repeat_length|]. intros i. simpl. apply nth_repeat.
    + intros g out Hg (HL & HN). cbv beta.
      destruct (decode_group_any s out g ltac:(divlia)) as (H1 & _). rewrite HL in H1.
      destruct (H1 (HG g ltac:(lia))) as (out' & E & HL' & HN'). exists out'. split; auto. split; [lia|].
      intros i. rewrite HN', HN. destruct (Nat.eqb_spec (i / 3) g), (Nat.ltb_spec (i / 3) g), (Nat.ltb_spec (i / 3) (S g)); try lia; cbn [andb]; auto.
      destruct (Ascii.eqb _ _) eqn:EE; cbn [negb]; auto. unfold decoded_byte. cbv zeta. now rewrite EE.
  - intros HF. destruct (decode_dich s (n * sz) HM) as [HF'|(g & Hg & E)]; [contradiction|].
    rewrite (for_up_ub (fun out => length out = n * sz) (fun g => group_ascii s g && group_fits s (n * sz) g)).
    + reflexivity.
    + intros i out Hi HL. destruct (decode_group_any s out i ltac:(divlia)) as (H1 & H2). rewrite HL in H1, H2.
      split; [|apply H2]. intros K. destruct (H1 K) as (o & E1 & E2 & _). exists o. auto.
    + apply repeat_length.
    + exists g. split; auto. lia.
Qed.

(** Text whose length is a multiple of four can make [Decode] write behind the vector. *)
Lemma c68_overflow_refuted : exists (sz : nat) (s : list ascii),
  0 < sz /\ length s mod 4 = 0 /\ (forall c, In c s -> exists x, (x < 64)%N /\ c = b64_char x) /\ Decode sz s = UB.
Proof.
  exists 8, ["A"; "A"; "A"; "A"]%char. split; [lia|]. split; [reflexivity|]. split; [|reflexivity].
  intros c Hc. exists 0%N. split; [lia|]. simpl in Hc. destruct Hc as [<-|[<-|[<-|[<-|[]]]]]; reflexivity.
Qed.
(** Characters outside the alphabet are accepted: they count as zero. *)
Lemma c68_invalid_refuted : exists (sz : nat) (s : list ascii) (v : list (list N)),
  Decode sz s = Ok v /\ exists c, In c s /\ c <> "="%char /\ forall x, (x < 64)%N -> c <> b64_char x.
Proof.
  exists 3, ["!"; "?"; "*"; "#"]%char, [[0; 0; 0]]%N. split; [reflexivity|]. exists "!"%char.
  split; [left; reflexivity|]. split; [discriminate|]. intros x Hx E.
  destruct (decode_char_ok x Hx) as (E1 & _). rewrite <- E in E1. vm_compute in E1. injection E1 as <-.
  vm_compute in E. discriminate.
Qed.

(** Text produced by any encoder that follows RFC 4648. *)
Lemma c68_standard : forall (sz : nat) (v : list (list N)), 0 < sz -> is_vector sz v ->
  Decode sz (rfc4648 (concat v)) = Ok (v ++ repeat (repeat 0%N sz) (padding (sz * length v) / sz)).
Proof.
  intros sz v Hsz Hv.
  assert (Hr : is_bytes [0; 0]%N) by repeat constructor.
  pose proof (padding_lt (sz * length v)) as HP.
  assert (HR : padding (sz * length v) <= length [0; 0]%N) by (simpl; lia).
  destruct (c46_encoding_partial sz v [0; 0]%N Hv Hr HR) as (s & E & _ & _ & _ & _ & HS).
  destruct (c48_small_partial sz v [0; 0]%N Hsz Hv Hr HR) as (s' & E' & D & _).
  rewrite <- HS, <- D; [congruence|]. right. intros i Hi. destruct i as [|[|i]]; reflexivity || (simpl; destruct i; reflexivity).
Qed.
