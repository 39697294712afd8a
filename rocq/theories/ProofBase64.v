(** Base64: closed forms of the model. *)
From Coq Require Import Arith Lia List ZArith NArith Bool Ascii String ZifyN ZifyNat.
From Verif Require Import Prelude ModelBase64 SpecBase64.
Import ListNotations.
Local Open Scope nat_scope.
Local Notation length := List.length.
Local Notation concat := List.concat.
Ltac divlia := zify; Z.to_euclidean_division_equations; lia.

(** ** Tables *)
Lemma encode_table_ok v : (v < 64)%N -> get char_encode_table (N.to_nat v) = Ok (b64_char v).
Proof.
  intros H. assert (HT : forallb (fun i => match get char_encode_table i with
    | Ok c => Ascii.eqb c (b64_char (N.of_nat i)) | _ => false end) (seq 0 64) = true) by reflexivity.
  rewrite forallb_forall in HT. specialize (HT (N.to_nat v)). rewrite in_seq in HT. specialize (HT ltac:(lia)).
  destruct (get char_encode_table (N.to_nat v)); try discriminate. rewrite N2Nat.id in HT.
  apply Ascii.eqb_eq in HT. congruence.
Qed.

Definition the_table : list N :=
  map (fun i => let n := N.of_nat i in
    if (65 <=? n) && (n <? 91) then n - 65 else if (97 <=? n) && (n <? 123) then n - 97 + 26
    else if (48 <=? n) && (n <? 58) then n - 48 + 52 else if n =? 43 then 62 else if n =? 47 then 63 else 0)%N (seq 0 256).
Lemma reverse_table_ok : ReverseCharEncodeTable = Ok the_table.
Proof. vm_compute. reflexivity. Qed.

Lemma decode_char_ok v : (v < 64)%N -> decode_char the_table (b64_char v) = Ok v /\ Ascii.eqb (b64_char v) "=" = false.
Proof.
  intros H. assert (HT : forallb (fun i => let c := b64_char (N.of_nat i) in
    match decode_char the_table c with Ok x => N.eqb x (N.of_nat i) | _ => false end && negb (Ascii.eqb c "="))
    (seq 0 64) = true) by (vm_compute; reflexivity).
  rewrite forallb_forall in HT. specialize (HT (N.to_nat v)). rewrite in_seq in HT. specialize (HT ltac:(lia)).
  cbv zeta in HT. rewrite N2Nat.id in HT. apply andb_prop in HT. destruct HT as (H1 & H2).
  apply negb_true_iff in H2. split; auto. destruct (decode_char _ _); try discriminate.
  apply N.eqb_eq in H1. congruence.
Qed.

(** ** Bit arithmetic *)
Lemma land_shiftr x m k j : m = N.shiftl (N.ones k) j -> N.shiftr (N.land x m) j = ((x / 2 ^ j) mod 2 ^ k)%N.
Proof.
  intros ->. rewrite N.shiftr_land, N.shiftr_shiftl_l, N.sub_diag, N.shiftl_0_r by lia.
  rewrite N.land_ones, N.shiftr_div_pow2. reflexivity.
Qed.
Lemma land_shiftl x m k j : m = N.ones k -> N.shiftl (N.land x m) j = (x mod 2 ^ k * 2 ^ j)%N.
Proof. intros ->. rewrite N.land_ones, N.shiftl_mul_pow2. reflexivity. Qed.

Section Bytes.
Local Open Scope N_scope.
Context (a b c : N) (Ha : a < 256) (Hb : b < 256) (Hc : c < 256).
Lemma sext0 : sextet 0 a b c = a / 4.
Proof. unfold sextet. change (64 ^ N.of_nat (3 - 0)) with 262144. divlia. Qed.
Lemma sext1 : sextet 1 a b c = a mod 4 * 16 + b / 16.
Proof. unfold sextet. change (64 ^ N.of_nat (3 - 1)) with 4096. divlia. Qed.
Lemma sext2 : sextet 2 a b c = b mod 16 * 4 + c / 64.
Proof. unfold sextet. change (64 ^ N.of_nat (3 - 2)) with 64. divlia. Qed.
Lemma sext3 : sextet 3 a b c = c mod 64.
Proof. unfold sextet. change (64 ^ N.of_nat (3 - 3)) with 1. divlia. Qed.
Lemma sextet_lt k : sextet k a b c < 64.
Proof. apply N.mod_lt. discriminate. Qed.
Lemma enc0 : N.shiftr (N.land a 0xfc) 2 = sextet 0 a b c.
Proof. rewrite (land_shiftr a _ 6) by reflexivity. rewrite sext0. change (2 ^ 2) with 4. change (2 ^ 6) with 64. divlia. Qed.
Lemma enc1 : N.shiftl (N.land a 0x03) 4 + N.shiftr (N.land b 0xf0) 4 = sextet 1 a b c.
Proof.
  rewrite (land_shiftl a _ 2), (land_shiftr b _ 4) by reflexivity. rewrite sext1.
  change (2 ^ 2) with 4. change (2 ^ 4) with 16. divlia.
Qed.
Lemma enc2 : N.shiftl (N.land b 0x0f) 2 + N.shiftr (N.land c 0xc0) 6 = sextet 2 a b c.
Proof.
  rewrite (land_shiftl b _ 4), (land_shiftr c _ 2) by reflexivity. rewrite sext2.
  change (2 ^ 2) with 4. change (2 ^ 4) with 16. change (2 ^ 6) with 64. divlia.
Qed.
Lemma enc3 : N.shiftl (N.land c 0x3f) 0 = sextet 3 a b c.
Proof. rewrite (land_shiftl c _ 6) by reflexivity. rewrite sext3. change (2 ^ 6) with 64. change (2 ^ 0) with 1. lia. Qed.

Lemma dec0 : (N.shiftl (N.land (sextet 0 a b c) 0x3f) 2 + N.shiftr (N.land (sextet 1 a b c) 0x30) 4) mod 256 = a.
Proof.
  rewrite (land_shiftl _ _ 6), (land_shiftr _ _ 2) by reflexivity. rewrite sext0, sext1.
  change (2 ^ 2) with 4. change (2 ^ 4) with 16. change (2 ^ 6) with 64. divlia.
Qed.
Lemma dec1 : (N.shiftl (N.land (sextet 1 a b c) 0x0f) 4 + N.shiftr (N.land (sextet 2 a b c) 0x3c) 2) mod 256 = b.
Proof.
  rewrite (land_shiftl _ _ 4), (land_shiftr _ _ 4) by reflexivity. rewrite sext1, sext2.
  change (2 ^ 2) with 4. change (2 ^ 4) with 16. change (2 ^ 6) with 64. divlia.
Qed.
Lemma dec2 : (N.shiftl (N.land (sextet 2 a b c) 0x03) 6 + N.shiftr (N.land (sextet 3 a b c) 0x3f) 0) mod 256 = c.
Proof.
  rewrite (land_shiftl _ _ 2), (land_shiftr _ _ 6) by reflexivity. rewrite sext2, sext3.
  change (2 ^ 2) with 4. change (2 ^ 4) with 16. change (2 ^ 6) with 64. change (2 ^ 0) with 1. divlia.
Qed.
End Bytes.

(** ** Encoding *)
Lemma padding_eq n : (3 - n mod 3) mod 3 = padding n.
Proof.
  unfold padding. pose proof (Nat.mod_upper_bound n 3 ltac:(lia)).
  destruct (n mod 3) as [|[|[|m]]]; try reflexivity. lia.
Qed.
Lemma padding_div n : exists g, n + padding n = g * 3.
Proof.
  unfold padding. exists ((n + 2) / 3). destruct (n mod 3) as [|[|[|m]]] eqn:E; try divlia.
Qed.
Definition groups_of (n : nat) : nat := (n + padding n) / 3.
Lemma groups_eq n : n + padding n = groups_of n * 3.
Proof. destruct (padding_div n) as (g & E). unfold groups_of. rewrite E, Nat.div_mul; lia. Qed.
Lemma padding_lt n : padding n < 3.
Proof. unfold padding. destruct (n mod 3) as [|[|m]]; lia. Qed.
Lemma padding_0 n : padding n = 0 <-> n mod 3 = 0.
Proof. unfold padding. destruct (n mod 3) as [|[|m]]; lia. Qed.

Lemma is_bytes_nth l i : is_bytes l -> (nth i l 0 < 256)%N.
Proof.
  intros H. destruct (Nat.lt_ge_cases i (length l)).
  - unfold is_bytes in H. rewrite Forall_forall in H. apply H, nth_In. auto.
  - rewrite nth_overflow by auto. lia.
Qed.

(** The character at position [i] of the unpadded encoding of [mem]. *)
Definition raw_char (mem : list N) (i : nat) : ascii :=
  b64_char (sextet (i mod 4) (nth (i / 4 * 3) mem 0%N) (nth (i / 4 * 3 + 1) mem 0%N) (nth (i / 4 * 3 + 2) mem 0%N)).

Lemma encode_group_ok mem n g s : is_bytes mem -> g * 3 < n -> g * 3 + 3 <= length mem -> g * 4 + 4 <= length s ->
  exists s', encode_group mem n g s = Ok s' /\ length s' = length s /\
    forall i, nth i s' zero = if (i / 4 =? g) then raw_char mem i else nth i s zero.
Proof.
  intros Hm Hn HL HS. unfold encode_group.
  set (a := nth (g * 3) mem 0%N). set (b := nth (g * 3 + 1) mem 0%N). set (c := nth (g * 3 + 2) mem 0%N).
  assert (Ha : (a < 256)%N) by (apply is_bytes_nth; auto).
  assert (Hb : (b < 256)%N) by (apply is_bytes_nth; auto).
  assert (Hc : (c < 256)%N) by (apply is_bytes_nth; auto).
  rewrite (proj2 (Nat.ltb_lt _ _) Hn). rewrite !(get_ok 0%N mem) by lia. cbn [bind].
  replace (g * 3 + 0) with (g * 3) by lia. fold a b c.
  rewrite (enc0 a b c), (enc1 a b c), (enc2 a b c), (enc3 a b c) by auto.
  do 3 (rewrite encode_table_ok by apply sextet_lt; cbn [bind]; rewrite set_ok by (rewrite ?length_upd; lia); cbn [bind]).
  rewrite encode_table_ok by apply sextet_lt; cbn [bind]. rewrite set_ok by (rewrite ?length_upd; lia).
  eexists. split; [reflexivity|]. split; [rewrite !length_upd; auto|]. intros i.
  rewrite !nth_upd by (rewrite ?length_upd; lia).
  destruct (Nat.eqb_spec (i / 4) g) as [E|E].
  - unfold raw_char. rewrite E. fold a b c. assert (Hi : i = 4 * g + i mod 4) by divlia.
    pose proof (Nat.mod_upper_bound i 4 ltac:(lia)). destruct (i mod 4) as [|[|[|[|m]]]]; try lia;
    repeat (match goal with |- context[Nat.eqb ?x ?y] => destruct (Nat.eqb_spec x y); try lia end); reflexivity.
  - repeat (match goal with |- context[Nat.eqb ?x ?y] => destruct (Nat.eqb_spec x y); [exfalso; divlia|] end). reflexivity.
Qed.

Lemma concat_length sz v : Forall (fun e : list N => length e = sz) v -> length (concat v) = sz * length v.
Proof. induction 1; simpl; [lia|]. rewrite app_length, IHForall, H. lia. Qed.
Lemma vector_length sz v : is_vector sz v -> length (concat v) = sz * length v.
Proof. intros H. apply concat_length. eapply Forall_impl; [|exact H]. simpl. tauto. Qed.
Lemma vector_bytes sz v : is_vector sz v -> is_bytes (concat v).
Proof. induction 1; simpl; [constructor|]. apply Forall_app. split; auto. tauto. Qed.

Lemma Encode_ok sz v rest : is_vector sz v -> is_bytes rest ->
  let n := sz * length v in padding n <= length rest ->
  exists s, Encode sz v rest = Ok s /\ length s = 4 * groups_of n /\
    forall i, i < 4 * groups_of n ->
      nth i s zero = if i <? 4 * groups_of n - padding n then raw_char (concat v ++ rest) i else "="%char.
Proof.
  intros Hv Hr n HR. unfold Encode. fold n. cbv zeta. rewrite padding_eq. fold (groups_of n).
  pose proof (groups_eq n) as HG. pose proof (padding_lt n) as HP.
  assert (HLm : length (concat v ++ rest) = n + length rest) by (rewrite app_length, (vector_length sz) by auto; reflexivity).
  assert (Hm : is_bytes (concat v ++ rest)) by (apply Forall_app; split; auto; eapply vector_bytes; eauto).
  set (mem := concat v ++ rest) in *.
  edestruct (for_up_inv (fun g s => length s = groups_of n * 4 /\
    forall i, i < 4 * g -> nth i s zero = raw_char mem i)) as (s & E & HL & HN).
  3:{ rewrite E. cbn [bind].
      edestruct (for_up_inv (fun k s => length s = groups_of n * 4 /\
        forall i, i < 4 * groups_of n -> nth i s zero = if i <? 4 * groups_of n - k then raw_char mem i else "="%char))
        as (s' & E' & HL' & HN').
      3:{ rewrite E'. exists s'. split; [reflexivity|]. split; [lia|]. exact HN'. }
      - cbv beta. split; auto. intros i Hi. rewrite (proj2 (Nat.ltb_lt _ _)) by lia. apply HN. lia.
      - intros k s' Hk (HL' & HN'). cbv beta.
        rewrite set_ok by lia. eexists. split; [reflexivity|]. split; [rewrite length_upd; auto|].
        intros i Hi. rewrite nth_upd by lia. rewrite HN' by auto.
        destruct (Nat.eqb_spec i (groups_of n * 4 - k - 1)), (Nat.ltb_spec i (4 * groups_of n - k)),
          (Nat.ltb_spec i (4 * groups_of n - S k)); auto; lia. }
  - cbv beta. split; [apply length_resize|]. lia.
  - intros g s Hg (HL & HN). cbv beta.
    destruct (encode_group_ok mem n g s) as (s' & E & HL' & HN'); auto; try lia.
    exists s'. split; auto. split; [lia|]. intros i Hi. rewrite HN'.
    destruct (Nat.eqb_spec (i / 4) g); auto. apply HN. divlia.
Qed.

(** Outside memory does not matter except through the bytes actually read. *)
Lemma raw_char_ext m m' i : (forall j, nth j m 0%N = nth j m' 0%N) -> raw_char m i = raw_char m' i.
Proof. intros H. unfold raw_char. now rewrite !H. Qed.

(** ** Decoding *)
Lemma decode_group_ok (s : list ascii) mem n out g :
  is_bytes mem -> length s = 4 * groups_of n -> n <= length out -> g < groups_of n ->
  (forall i, i < 4 * groups_of n ->
      nth i s zero = if i <? 4 * groups_of n - padding n then raw_char mem i else "="%char) ->
  exists out', decode_group the_table s g out = Ok out' /\ length out' = length out /\
    forall i, nth i out' 0%N = if (i / 3 =? g) && (i <? n) then nth i mem 0%N else nth i out 0%N.
Proof.
  intros Hm HL HO Hg HS. unfold decode_group. cbv zeta.
  pose proof (groups_eq n) as HG. pose proof (padding_lt n) as HP.
  set (a := nth (g * 3) mem 0%N). set (b := nth (g * 3 + 1) mem 0%N). set (c := nth (g * 3 + 2) mem 0%N).
  assert (Ha : (a < 256)%N) by (apply is_bytes_nth; auto).
  assert (Hb : (b < 256)%N) by (apply is_bytes_nth; auto).
  assert (Hc : (c < 256)%N) by (apply is_bytes_nth; auto).
  assert (HX : forall k, k < 4 -> (do ch <- get s (g * 4 + k);
     if Ascii.eqb ch "=" then Ok 255%N else decode_char the_table ch) =
     Ok (if g * 4 + k <? 4 * groups_of n - padding n then sextet k a b c else 255%N)).
  { intros k Hk. rewrite (get_ok zero) by lia. cbn [bind]. rewrite HS by lia.
    destruct (Nat.ltb_spec (g * 4 + k) (4 * groups_of n - padding n)); [|reflexivity].
    unfold raw_char. replace ((g * 4 + k) / 4) with g by divlia. replace ((g * 4 + k) mod 4) with k by divlia.
    fold a b c. destruct (decode_char_ok (sextet k a b c)) as (E1 & E2); [apply sextet_lt|]. now rewrite E2, E1. }
  rewrite (mapM_ok _ (fun k => if g * 4 + k <? 4 * groups_of n - padding n then sextet k a b c else 255%N))
    by (intros k Hk; apply HX; simpl in Hk; lia).
  cbn [bind map]. unfold get. cbn [nth_error bind].
  assert (HN : forall k, N.eqb (sextet k a b c) 255 = false)
    by (intros k; apply N.eqb_neq; pose proof (sextet_lt a b c k); lia).
  rewrite (proj2 (Nat.ltb_lt (g * 4 + 0) _)), (proj2 (Nat.ltb_lt (g * 4 + 1) _)) by lia.
  rewrite HN. rewrite dec0 by auto. rewrite set_ok by lia. cbn [bind].
  destruct (Nat.ltb_spec (g * 4 + 2) (4 * groups_of n - padding n)) as [H2|H2].
  - rewrite HN, dec1 by auto. rewrite set_ok by (rewrite length_upd; lia). cbn [bind].
    destruct (Nat.ltb_spec (g * 4 + 3) (4 * groups_of n - padding n)) as [H3|H3].
    + rewrite HN, dec2 by auto. rewrite set_ok by (rewrite !length_upd; lia).
      eexists. split; [reflexivity|]. split; [rewrite !length_upd; auto|]. intros i.
      rewrite !nth_upd by (rewrite ?length_upd; lia).
      destruct (Nat.eqb_spec i (g * 3 + 2)); [subst i|destruct (Nat.eqb_spec i (g * 3 + 1)); [subst i|destruct (Nat.eqb_spec i (g * 3)); [subst i|]]].
      1-3: rewrite (proj2 (Nat.eqb_eq _ g)) by divlia; rewrite (proj2 (Nat.ltb_lt _ n)) by lia; reflexivity.
      rewrite (proj2 (Nat.eqb_neq _ g)) by divlia. reflexivity.
    + eexists. split; [reflexivity|]. split; [rewrite !length_upd; auto|]. intros i.
      rewrite !nth_upd by (rewrite ?length_upd; lia).
      destruct (Nat.eqb_spec i (g * 3 + 1)); [subst i|destruct (Nat.eqb_spec i (g * 3)); [subst i|]].
      1-2: rewrite (proj2 (Nat.eqb_eq _ g)) by divlia; rewrite (proj2 (Nat.ltb_lt _ n)) by lia; reflexivity.
      destruct (Nat.eqb_spec (i / 3) g); [|reflexivity]. rewrite (proj2 (Nat.ltb_ge _ n)) by divlia. reflexivity.
  - rewrite (proj2 (Nat.ltb_ge (g * 4 + 3) _)) by lia. cbn [bind N.eqb Pos.eqb].
    eexists. split; [reflexivity|]. split; [rewrite !length_upd; auto|]. intros i.
    rewrite !nth_upd by (rewrite ?length_upd; lia).
    destruct (Nat.eqb_spec i (g * 3)); [subst i|].
    + rewrite (proj2 (Nat.eqb_eq _ g)) by divlia; rewrite (proj2 (Nat.ltb_lt _ n)) by lia; reflexivity.
    + destruct (Nat.eqb_spec (i / 3) g); [|reflexivity]. rewrite (proj2 (Nat.ltb_ge _ n)) by divlia. reflexivity.
Qed.

Lemma length_entries sz n bytes : length (entries_of sz n bytes) = n.
Proof. unfold entries_of. now rewrite map_length, seq_length. Qed.

Lemma concat_entry sz v i : Forall (fun e : list N => length e = sz) v -> i < length v ->
  firstn sz (skipn (i * sz) (concat v)) = nth i v [].
Proof.
  intros H; revert i; induction H; intros i Hi; [simpl in Hi; lia|]. destruct i; simpl.
  - rewrite <- H at 1. rewrite firstn_app, firstn_all, Nat.sub_diag, firstn_O, app_nil_r. reflexivity.
  - rewrite skipn_app, (skipn_all2 x) by lia. simpl. replace (sz + i * sz - length x) with (i * sz) by lia.
    apply IHForall. simpl in Hi. lia.
Qed.
Lemma entries_concat sz v : Forall (fun e : list N => length e = sz) v ->
  entries_of sz (length v) (concat v) = v.
Proof.
  intros H. apply (list_ext []).
  - apply length_entries.
  - intros i Hi. rewrite length_entries in Hi. unfold entries_of. rewrite (nth_map_seq _ _ _ []) by auto.
    apply concat_entry; auto.
Qed.

(** Decoding what [Encode] produced: the entries, followed by one zero entry for every [sz]
    padding bytes. *)
Lemma Decode_Encode sz v rest : 0 < sz -> is_vector sz v -> is_bytes rest -> padding (sz * length v) <= length rest ->
  exists s, Encode sz v rest = Ok s /\
    Decode sz s = Ok (v ++ repeat (repeat 0%N sz) (padding (sz * length v) / sz)).
Proof.
  intros Hsz Hv Hr HR. destruct (Encode_ok sz v rest Hv Hr HR) as (s & E & HL & HN). exists s. split; auto.
  set (n := sz * length v) in *. unfold Decode. rewrite HL.
  replace ((4 * groups_of n) mod 4) with 0 by divlia. cbn [assert_ Nat.eqb bind].
  replace (4 * groups_of n / 4) with (groups_of n) by divlia. rewrite reverse_table_ok. cbn [bind].
  pose proof (groups_eq n) as HG. pose proof (padding_lt n) as HP.
  assert (Hno : groups_of n * 3 / sz = length v + padding n / sz).
  { rewrite <- HG. unfold n at 1. rewrite (Nat.mul_comm sz), Nat.div_add_l by lia. reflexivity. }
  cbv zeta. rewrite Hno. set (no := length v + padding n / sz).
  assert (Hm : is_bytes (concat v ++ rest)) by (apply Forall_app; split; auto; eapply vector_bytes; eauto).
  assert (Hnn : n <= no * sz).
  { unfold no. rewrite Nat.mul_add_distr_r. unfold n at 1. generalize (padding n / sz * sz). lia. }
  edestruct (for_up_inv (fun g out => length out = no * sz /\
    forall i, nth i out 0%N = if (i / 3 <? g) && (i <? n) then nth i (concat v ++ rest) 0%N else 0%N)) as (out & E' & HLo & HNo).
  3:{ rewrite E'. cbn [bind]. f_equal.
      assert (HEo : out = concat (v ++ repeat (repeat 0%N sz) (padding n / sz))).
      { rewrite concat_app.
        assert (HLz : length (concat (repeat (repeat 0%N sz) (padding n / sz))) = sz * (padding n / sz)).
        { rewrite (concat_length sz); [rewrite repeat_length; auto|].
          apply Forall_forall. intros x Hx. apply repeat_spec in Hx. subst x. apply repeat_length. }
        assert (HLv : length (concat v) = n) by (apply vector_length; auto).
        apply (list_ext 0%N).
        - rewrite HLo, app_length, HLz, HLv. unfold no. assert (En : n = sz * length v) by reflexivity.
          rewrite En at 2. ring.
        - intros i Hi. rewrite HNo. destruct (Nat.ltb_spec i n) as [Hin|Hin].
          + rewrite (proj2 (Nat.ltb_lt (i / 3) _)) by divlia. simpl. rewrite !app_nth1 by lia. reflexivity.
          + rewrite andb_false_r. rewrite app_nth2 by lia.
            assert (HZ : forall m k, nth k (concat (repeat (repeat 0%N sz) m)) 0%N = 0%N).
            { induction m; intros k; simpl; [destruct k; auto|].
              destruct (Nat.lt_ge_cases k sz).
              - rewrite app_nth1 by (rewrite repeat_length; auto). apply nth_repeat.
              - rewrite app_nth2 by (rewrite repeat_length; auto). apply IHm. }
            rewrite HZ. reflexivity. }
      rewrite HEo. replace no with (length (v ++ repeat (repeat 0%N sz) (padding n / sz)))
        by (rewrite app_length, repeat_length; reflexivity).
      apply entries_concat. apply Forall_app. split.
      - eapply Forall_impl; [|exact Hv]. simpl. tauto.
      - apply Forall_forall. intros x Hx. apply repeat_spec in Hx. subst x. apply repeat_length. }
  - cbv beta. split; [apply repeat_length|]. intros i. simpl. rewrite nth_repeat. reflexivity.
  - intros g out Hg (HLo & HNo). cbv beta.
    destruct (decode_group_ok s (concat v ++ rest) n out g) as (out' & E' & HL' & HN'); auto; try lia.
    exists out'. split; auto. split; [lia|]. intros i. rewrite HN', HNo.
    destruct (Nat.eqb_spec (i / 3) g), (Nat.ltb_spec i n), (Nat.ltb_spec (i / 3) g), (Nat.ltb_spec (i / 3) (S g)); simpl; auto; lia.
Qed.
